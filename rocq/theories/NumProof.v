(** Decimal text of naturals and of binary64 numbers: printing then parsing gives the
    number back. *)
From Coq Require Import SpecFloat Eqdep_dec.
From Verif Require Import Chars Floats Json Lex.

Local Open Scope N_scope.

(** * Naturals *)

Definition all_digits (s : str) : Prop := Forall (fun c => is_digit c = true) s.

Lemma dec_val_gen s acc :
  fold_left (fun acc c => acc * 10 + (c - 48)) s acc
  = acc * 10 ^ N.of_nat (length s) + dec_val s.
Proof.
  unfold dec_val. revert acc. induction s as [|c s IH]; intros acc; cbn [fold_left].
  - simpl. lia.
  - rewrite (IH (acc * 10 + (c - 48))), (IH (0 * 10 + (c - 48))).
    replace (N.of_nat (length (c :: s))) with (N.succ (N.of_nat (length s))) by (simpl length; lia).
    rewrite N.pow_succ_r'. ring.
Qed.

Lemma dec_val_app a b : dec_val (a ++ b) = dec_val a * 10 ^ N.of_nat (length b) + dec_val b.
Proof. unfold dec_val at 1. rewrite fold_left_app. rewrite dec_val_gen. reflexivity. Qed.

Lemma dec_val_cons c s : dec_val (c :: s) = (c - 48) * 10 ^ N.of_nat (length s) + dec_val s.
Proof. change (c :: s) with ([c] ++ s). rewrite dec_val_app. reflexivity. Qed.

Lemma dec_val_bound s : all_digits s -> dec_val s < 10 ^ N.of_nat (length s).
Proof.
  induction 1 as [|c s Hc Hs IH]; [reflexivity|].
  rewrite dec_val_cons. simpl length. rewrite Nat2N.inj_succ, N.pow_succ_r'.
  unfold is_digit in Hc. assert (c - 48 <= 9) by lia. nia.
Qed.

Lemma digit_char d : d < 10 -> is_digit (48 + d) = true.
Proof. unfold is_digit. lia. Qed.

Lemma digits_fuel_spec fuel n acc :
  n < 2 ^ N.of_nat fuel ->
  exists ds, digits_fuel (S fuel) n acc = ds ++ acc /\ all_digits ds /\ dec_val ds = n /\
             exists c r, ds = c :: r /\ (n = 0 -> ds = [48]) /\ (n <> 0 -> c <> 48).
Proof.
  revert n acc. induction fuel as [|fuel IH]; intros n acc Hn.
  - simpl in Hn. assert (n = 0) by lia. subst. simpl. exists [48]. repeat split; auto.
    + repeat constructor.
    + exists 48, []. repeat split; auto.
  - cbn [digits_fuel]. destruct (N.eqb_spec (n / 10) 0) as [Hz|Hz].
    + assert (Hlt : n < 10) by (apply N.div_small_iff in Hz; lia).
      rewrite N.mod_small by auto.
      exists [48 + n]. repeat split.
      * constructor; [now apply digit_char | constructor].
      * unfold dec_val. cbn [fold_left]. lia.
      * exists (48 + n), []. repeat split; intros; [subst; reflexivity | lia].
    + assert (Hq : n / 10 < 2 ^ N.of_nat fuel).
      { rewrite Nat2N.inj_succ, N.pow_succ_r' in Hn. apply N.div_lt_upper_bound; lia. }
      destruct (IH (n / 10) ((48 + n mod 10) :: acc) Hq) as (ds & E & Hd & Hv & c & r & Ec & H0 & H1).
      exists (ds ++ [48 + n mod 10]). rewrite <- app_assoc. simpl app.
      assert (Hm : n mod 10 < 10) by (apply N.mod_lt; lia).
      split; [exact E|]. split; [|split].
      * apply Forall_app. split; auto. constructor; [now apply digit_char | constructor].
      * rewrite dec_val_app. simpl length. change (10 ^ N.of_nat 1) with 10.
        assert (Hc : dec_val [48 + n mod 10] = n mod 10) by (unfold dec_val; cbn [fold_left]; lia).
        rewrite Hc, Hv. pose proof (N.div_mod n 10). lia.
      * exists c, (r ++ [48 + n mod 10]). subst ds. split; [reflexivity|]. split.
        -- intros ->. rewrite N.div_0_l in Hz by lia. congruence.
        -- intros _. auto.
Qed.

Lemma dec_of_N_spec n :
  all_digits (dec_of_N n) /\ dec_val (dec_of_N n) = n /\
  exists c r, dec_of_N n = c :: r /\ (n = 0 -> dec_of_N n = [48]) /\ (n <> 0 -> c <> 48).
Proof.
  unfold dec_of_N. assert (H : n < 2 ^ N.of_nat (N.to_nat (N.size n))).
  { rewrite N2Nat.id. apply N.size_gt. }
  destruct (digits_fuel_spec _ _ [] H) as (ds & E & Hd & Hv & c & r & Ec & H0 & H1).
  rewrite app_nil_r in E. rewrite E. eauto 10.
Qed.

Lemma dec_of_N_digits n : all_digits (dec_of_N n).
Proof. apply dec_of_N_spec. Qed.
Lemma dec_of_N_val n : dec_val (dec_of_N n) = n.
Proof. apply dec_of_N_spec. Qed.
Lemma dec_of_N_nonempty n : dec_of_N n <> [].
Proof. destruct (dec_of_N_spec n) as (_ & _ & c & r & E & _). rewrite E. discriminate. Qed.
Lemma dec_of_N_inj n m : dec_of_N n = dec_of_N m -> n = m.
Proof. intros H. rewrite <- (dec_of_N_val n), <- (dec_of_N_val m). now rewrite H. Qed.

(** A digit string without leading zero is at least 10^(length-1). *)
Lemma dec_val_lower c r : all_digits (c :: r) -> c <> 48 ->
  10 ^ N.of_nat (length r) <= dec_val (c :: r).
Proof.
  intros H Hc. rewrite dec_val_cons. inversion H; subst. unfold is_digit in *.
  assert (1 <= c - 48) by lia. nia.
Qed.

Lemma dec_of_N_length n k : k <> 0%nat -> n < 10 ^ N.of_nat k -> (length (dec_of_N n) <= k)%nat.
Proof.
  intros Hk Hn. destruct (dec_of_N_spec n) as (Hd & Hv & c & r & E & H0 & H1).
  destruct (N.eq_dec n 0) as [Hz|Hz].
  - rewrite H0 by auto. simpl. lia.
  - rewrite E in *. assert (Hl := dec_val_lower c r Hd (H1 Hz)). rewrite Hv in Hl.
    simpl length. assert (N.of_nat (length r) < N.of_nat k); [|lia].
    apply (N.pow_lt_mono_r_iff 10); lia.
Qed.

(** span_digits *)
Lemma span_digits_app a b :
  all_digits a -> (match b with [] => True | c :: _ => is_digit c = false end) ->
  span_digits (a ++ b) = (a, b).
Proof.
  intros Ha Hb. induction Ha as [|c a Hc Ha IH]; simpl.
  - destruct b as [|c b]; simpl; auto. now rewrite Hb.
  - rewrite Hc, IH. reflexivity.
Qed.

Lemma span_digits_spec s a b : span_digits s = (a, b) ->
  s = a ++ b /\ all_digits a /\ (match b with [] => True | c :: _ => is_digit c = false end).
Proof.
  revert a b. induction s as [|c s IH]; simpl; intros a b H.
  - injection H as <- <-. repeat split; constructor.
  - destruct (is_digit c) eqn:Hc.
    + destruct (span_digits s) as [a' b'] eqn:E. injection H as <- <-.
      destruct (IH _ _ eq_refl) as (-> & Ha & Hb). repeat split; auto. constructor; auto.
    + injection H as <- <-. repeat split; auto. constructor.
Qed.

(** * Floats *)

Lemma f64_eq x y : f64_sf x = f64_sf y -> x = y.
Proof.
  destruct x as [a Ha], y as [b Hb]. simpl. intros ->. f_equal.
  apply UIP_dec. apply bool_dec.
Qed.

Lemma mk_f64_sf x : valid_binary prec64 emax64 x = true -> f64_sf (mk_f64 x) = x.
Proof. intros H. unfold mk_f64. destruct (bool_dec _ _); [reflexivity|contradiction]. Qed.

Lemma mk_f64_id x : mk_f64 (f64_sf x) = x.
Proof. apply f64_eq. apply mk_f64_sf. apply f64_ok. Qed.

Lemma sf_eqb_eq a b : sf_eqb a b = true <-> a = b.
Proof.
  destruct a, b; simpl; split; intros H; try discriminate; try reflexivity.
  all: repeat match goal with
         | H : _ && _ = true |- _ => apply andb_prop in H as [? ?]
         | H : Bool.eqb _ _ = true |- _ => apply eqb_prop in H
         | H : (_ =? _)%positive = true |- _ => apply Pos.eqb_eq in H
         | H : (_ =? _)%Z = true |- _ => apply Z.eqb_eq in H
         end; try congruence.
  all: injection H; intros; subst; rewrite ?eqb_reflx, ?Pos.eqb_refl, ?Z.eqb_refl; reflexivity.
Qed.

Local Open Scope Z_scope.

Lemma pow2_pos e : 0 < pow2 e.
Proof. unfold pow2. destruct (Z.ltb_spec e 0); [lia|]. apply Z.pow_pos_nonneg; lia. Qed.

Lemma pow2_scale K L : 0 <= K -> 0 <= K + L -> pow2 L * 2 ^ K = 2 ^ (K + L) * pow2 (- L).
Proof.
  intros HK HL. unfold pow2. destruct (Z.ltb_spec L 0).
  - destruct (Z.ltb_spec (- L) 0); [lia|]. rewrite Z.mul_1_l, <- Z.pow_add_r by lia.
    f_equal. lia.
  - destruct (Z.ltb_spec (- L) 0).
    + rewrite Z.mul_1_r, <- Z.pow_add_r by lia. f_equal. lia.
    + assert (L = 0) by lia. subst. rewrite Z.add_0_r. change (2 ^ (- 0)) with 1.
      change (2 ^ 0) with 1. lia.
Qed.

(** The comparison d * 2^L <= n, scaled. *)
Lemma cmp_scale n d K L : 0 <= K -> 0 <= K + L ->
  d * pow2 L <= n * pow2 (- L) <-> d * 2 ^ (K + L) <= n * 2 ^ K.
Proof.
  intros HK HL. pose proof (pow2_scale K L HK HL) as E.
  pose proof (pow2_pos (- L)) as P1.
  assert (P2 : 0 < 2 ^ K) by (apply Z.pow_pos_nonneg; lia).
  split; intros H.
  - apply (Z.mul_le_mono_pos_r _ _ (pow2 (- L))); [lia|].
    replace (d * 2 ^ (K + L) * pow2 (- L)) with (d * pow2 L * 2 ^ K)
      by (rewrite <- !Z.mul_assoc, E; reflexivity).
    replace (n * 2 ^ K * pow2 (- L)) with (n * pow2 (- L) * 2 ^ K) by ring.
    nia.
  - apply (Z.mul_le_mono_pos_r _ _ (2 ^ K)); [lia|].
    replace (d * pow2 L * 2 ^ K) with (d * 2 ^ (K + L) * pow2 (- L))
      by (rewrite <- !Z.mul_assoc, E; reflexivity).
    replace (n * pow2 (- L) * 2 ^ K) with (n * 2 ^ K * pow2 (- L)) by ring.
    nia.
Qed.

Lemma flog2_q_correct n d L K :
  0 < n -> 0 < d -> 0 <= K -> 0 <= K + L -> 0 <= K + (Z.log2 n - Z.log2 d) ->
  d * 2 ^ (K + L) <= n * 2 ^ K -> n * 2 ^ K < d * 2 ^ (K + L + 1) ->
  flog2_q n d = L.
Proof.
  intros Hn Hd HK HL Ha H1 H2.
  pose proof (Z.log2_spec n Hn) as [Ln1 Ln2]. pose proof (Z.log2_spec d Hd) as [Ld1 Ld2].
  pose proof (Z.log2_nonneg n). pose proof (Z.log2_nonneg d).
  set (ln := Z.log2 n) in *. set (ld := Z.log2 d) in *.
  assert (P1 : 0 < 2 ^ (K + L)) by (apply Z.pow_pos_nonneg; lia).
  assert (P2 : 0 < 2 ^ K) by (apply Z.pow_pos_nonneg; lia).
  assert (P3 : 0 < 2 ^ (K + L + 1)) by (apply Z.pow_pos_nonneg; lia).
  assert (A1 : L <= ln - ld).
  { assert (ld + (K + L) < Z.succ ln + K); [|lia].
    apply (Z.pow_lt_mono_r_iff 2); try lia.
    rewrite (Z.pow_add_r 2 ld (K + L)), (Z.pow_add_r 2 (Z.succ ln) K) by lia. nia. }
  assert (A2 : ln - ld <= L + 1).
  { assert (ln + K < Z.succ ld + (K + L + 1)); [|lia].
    apply (Z.pow_lt_mono_r_iff 2); try lia.
    rewrite (Z.pow_add_r 2 ln K), (Z.pow_add_r 2 (Z.succ ld)) by lia. nia. }
  unfold flog2_q. fold ln ld.
  destruct (Z.leb_spec (d * pow2 (ln - ld)) (n * pow2 (- (ln - ld)))) as [C|C].
  - apply (cmp_scale n d K) in C; [|lia|lia].
    destruct (Z.eq_dec (ln - ld) L); auto.
    exfalso. assert (E : ln - ld = L + 1) by lia. rewrite E in C.
    rewrite Z.add_assoc in C. lia.
  - destruct (Z.eq_dec (ln - ld) L) as [E|E]; [|lia].
    exfalso. rewrite E in C. apply (cmp_scale n d K L) in H1; lia.
Qed.

Lemma div_half_even_exact m d : 0 < d -> div_half_even (m * d) d = m.
Proof.
  intros H. unfold div_half_even. rewrite Z.div_mul, Z.mod_mul by lia.
  destruct (Z.ltb_spec (2 * 0) d); lia.
Qed.

(** Digits of the mantissa. *)
Lemma digits2_pos_log2 m : Zpos (digits2_pos m) = Z.log2 (Zpos m) + 1.
Proof.
  induction m; simpl digits2_pos; rewrite ?Pos2Z.inj_succ.
  - rewrite IHm. rewrite Pos2Z.inj_xI, Z.log2_succ_double by lia. lia.
  - rewrite IHm. rewrite Pos2Z.inj_xO, Z.log2_double by lia. lia.
  - reflexivity.
Qed.

Lemma valid_finite s m e :
  valid_binary prec64 emax64 (S754_finite s m e) = true ->
  e = Z.max (-1074) (Z.log2 (Zpos m) + e - 52) /\ e <= 971 /\ Zpos m < 2 ^ 53.
Proof.
  cbn [valid_binary]. unfold bounded, canonical_mantissa, fexp, emin, prec64, emax64.
  intros H. apply andb_prop in H as [H1 H2].
  apply Zeq_bool_eq in H1. rewrite digits2_pos_log2 in H1. apply Z.leb_le in H2.
  split; [lia|]. split; [lia|].
  pose proof (Z.log2_spec (Zpos m) eq_refl) as [_ L].
  assert (Z.log2 (Zpos m) <= 52) by lia.
  eapply Z.lt_le_trans; [exact L|]. apply Z.pow_le_mono_r; lia.
Qed.

(** Rounding an exactly representable fraction returns it. *)
Lemma round_q_exact s m e n d :
  valid_binary prec64 emax64 (S754_finite s m e) = true ->
  0 < d -> n * pow2 (- e) = Zpos m * (d * pow2 e) ->
  round_q s n d = S754_finite s m e.
Proof.
  intros V Hd E. destruct (valid_finite _ _ _ V) as (He & Hmax & Hm).
  pose proof (pow2_pos e) as P1. pose proof (pow2_pos (- e)) as P2.
  assert (Hn : 0 < n) by nia.
  set (ln := Z.log2 n). set (ld := Z.log2 d). set (lm := Z.log2 (Zpos m)) in *.
  pose proof (Z.log2_nonneg n). pose proof (Z.log2_nonneg d).
  pose proof (Z.log2_nonneg (Zpos m)). fold lm in H1. fold ln in H. fold ld in H0.
  assert (F : flog2_q n d = lm + e).
  { pose (K := Z.abs e + ld).
    assert (S1 : pow2 e * 2 ^ K = 2 ^ (K + e) * pow2 (- e)) by (apply pow2_scale; unfold K; lia).
    assert (EE : n * 2 ^ K = Zpos m * (d * 2 ^ (K + e))).
    { apply (Z.mul_reg_r _ _ (pow2 (- e))); [lia|].
      replace (n * 2 ^ K * pow2 (- e)) with (n * pow2 (- e) * 2 ^ K) by ring. rewrite E.
      replace (Zpos m * (d * pow2 e) * 2 ^ K) with (Zpos m * d * (pow2 e * 2 ^ K)) by ring.
      rewrite S1. ring. }
    pose proof (Z.log2_spec (Zpos m) eq_refl) as [L1 L2]. fold lm in L1, L2.
    assert (P3 : 0 < 2 ^ (K + e)) by (apply Z.pow_pos_nonneg; unfold K; lia).
    apply (flog2_q_correct n d (lm + e) K); unfold K; fold ln ld; try lia; fold K.
    - rewrite EE. replace (K + (lm + e)) with (lm + (K + e)) by lia.
      rewrite Z.pow_add_r by (unfold K; lia). nia.
    - rewrite EE. replace (K + (lm + e) + 1) with (Z.succ lm + (K + e)) by lia.
      rewrite (Z.pow_add_r 2 (Z.succ lm)) by (unfold K; lia).
      replace (d * (2 ^ Z.succ lm * 2 ^ (K + e))) with (2 ^ Z.succ lm * (d * 2 ^ (K + e))) by ring.
      apply Z.mul_lt_mono_pos_r; [nia|lia]. }
  unfold round_q. destruct (Z.eqb_spec n 0); [lia|].
  rewrite F. rewrite <- He. rewrite E, div_half_even_exact by nia.
  destruct (Z.eqb_spec (Zpos m) (2 ^ 53)); [lia|].
  destruct (Z.ltb_spec 971 e); [lia|]. reflexivity.
Qed.

(** Sign symmetry. *)
Definition sf_opp (x : spec_float) : spec_float :=
  match x with
  | S754_zero s => S754_zero (negb s)
  | S754_infinity s => S754_infinity (negb s)
  | S754_nan => S754_nan
  | S754_finite s m e => S754_finite (negb s) m e
  end.

Lemma round_q_sign n d : round_q true n d = sf_opp (round_q false n d).
Proof.
  unfold round_q. destruct (n =? 0); [reflexivity|].
  destruct (_ =? 2 ^ 53).
  - destruct (971 <? _); reflexivity.
  - destruct (div_half_even _ _); try reflexivity. destruct (971 <? _); reflexivity.
Qed.

Lemma round_dec_sign M E : round_dec true M E = sf_opp (round_dec false M E).
Proof. unfold round_dec. destruct (E <? 0); apply round_q_sign. Qed.

Lemma shortest_from_ok up k j t n d m e :
  valid_binary prec64 emax64 (S754_finite false m e) = true ->
  let '(c, p) := shortest_from up k j t n d m e in
  round_dec false c p = S754_finite false m e.
Proof.
  intros V. revert j. induction k as [|k IH]; intros j.
  - cbn [shortest_from]. destruct (Z.ltb_spec e 0) as [He|He]; unfold round_dec.
    + destruct (Z.ltb_spec e 0); [|lia].
      assert (P5 : 0 < 5 ^ (- e)) by (apply Z.pow_pos_nonneg; lia).
      rewrite Z2N.id by lia.
      apply round_q_exact; auto.
      * apply Z.pow_pos_nonneg; lia.
      * unfold pow2. destruct (Z.ltb_spec (- e) 0); [lia|]. destruct (Z.ltb_spec e 0); [|lia].
        change 10 with (5 * 2). rewrite Z.pow_mul_l.
        generalize (5 ^ (- e)) (2 ^ (- e)). intros. ring.
    + destruct (Z.ltb_spec 0 0); [lia|].
      assert (P2 : 0 < 2 ^ e) by (apply Z.pow_pos_nonneg; lia).
      rewrite Z2N.id by lia.
      apply round_q_exact; auto; [lia|].
      unfold pow2. destruct (Z.ltb_spec e 0); [lia|]. destruct (Z.ltb_spec (- e) 0).
      * ring.
      * assert (e = 0) by lia. subst. change (2 ^ (- 0)) with 1. change (2 ^ 0) with 1. ring.
  - cbn [shortest_from]. cbv zeta.
    match goal with |- context [if sf_eqb (round_dec false (fst ?a) (snd ?a)) _ then _ else _] =>
      remember a as cp1 eqn:Ecp1; clear Ecp1;
      destruct (sf_eqb (round_dec false (fst cp1) (snd cp1)) (S754_finite false m e)) eqn:E1
    end.
    { apply sf_eqb_eq in E1. destruct cp1. exact E1. }
    match goal with |- context [if sf_eqb (round_dec false (fst ?a) (snd ?a)) _ then _ else _] =>
      remember a as cp2 eqn:Ecp2; clear Ecp2;
      destruct (sf_eqb (round_dec false (fst cp2) (snd cp2)) (S754_finite false m e)) eqn:E2
    end.
    { apply sf_eqb_eq in E2. destruct cp2. exact E2. }
    apply IH.
Qed.

Lemma shortest_by_ok up m e s :
  valid_binary prec64 emax64 (S754_finite s m e) = true ->
  let '(c, p) := shortest_by up m e in round_dec s c p = S754_finite s m e.
Proof.
  intros V. assert (V' : valid_binary prec64 emax64 (S754_finite false m e) = true) by exact V.
  unfold shortest_by. destruct (f64_frac m e) as [n d].
  pose proof (shortest_from_ok up 17 1 (dec_exponent n d) n d m e V') as H.
  destruct (shortest_from _ _ _ _ _ _ _ _) as [c p].
  destruct s; [|exact H]. rewrite round_dec_sign, H. reflexivity.
Qed.
Lemma shortest_ok m e s :
  valid_binary prec64 emax64 (S754_finite s m e) = true ->
  let '(c, p) := shortest m e in round_dec s c p = S754_finite s m e.
Proof. apply shortest_by_ok. Qed.

(** * Decimal text c * 10^p *)

Lemma dec_val_zeros k s : dec_val (repeat cZERO k ++ s) = dec_val s.
Proof.
  induction k as [|k IH]; simpl app; auto.
Qed.

Lemma pad_left_length k s : (length s <= k)%nat -> length (pad_left k s) = k.
Proof. intros H. unfold pad_left. rewrite app_length, repeat_length. lia. Qed.

Lemma pad_left_digits k s : all_digits s -> all_digits (pad_left k s).
Proof.
  intros H. apply Forall_app. split; auto. apply Forall_forall. intros c Hc.
  apply repeat_spec in Hc. now subst.
Qed.

(** The shape of the text and what it denotes. *)
Lemma format_fixed_spec c p :
  exists ip fp,
    format_fixed c p = ip ++ (if is_empty fp then [] else cDOT :: fp) /\
    all_digits ip /\ all_digits fp /\ ip <> [] /\
    (forall r, ip = cZERO :: r -> r = []) /\
    forall s, round_dec s (dec_val (ip ++ fp)) (0 - Z.of_nat (length fp)) = round_dec s c p.
Proof.
  unfold format_fixed. destruct (Z.ltb_spec p 0) as [Hp|Hp].
  - set (k := Z.to_N (- p)).
    assert (Hk : k <> 0%N) by (unfold k; lia).
    set (fp := pad_left (N.to_nat k) (dec_of_N (c mod 10 ^ k))).
    assert (Hfl : length fp = N.to_nat k).
    { apply pad_left_length. apply dec_of_N_length; [lia|]. rewrite N2Nat.id. apply N.mod_lt.
      apply N.pow_nonzero. lia. }
    assert (Hfn : fp <> []) by (intros E; rewrite E in Hfl; simpl in Hfl; lia).
    exists (dec_of_N (c / 10 ^ k)), fp.
    split. { destruct fp; [congruence|reflexivity]. }
    split; [apply dec_of_N_digits|]. split; [apply pad_left_digits, dec_of_N_digits|].
    split; [apply dec_of_N_nonempty|]. split.
    + intros r Hr. destruct (dec_of_N_spec (c / 10 ^ k)) as (_ & _ & x & q & E & H0 & H1).
      destruct (N.eq_dec (c / 10 ^ k) 0) as [Hz|Hz].
      * rewrite H0 in Hr by auto. now injection Hr as <-.
      * rewrite Hr in E. injection E as <- <-. exfalso. now apply H1.
    + intros s. rewrite dec_val_app, dec_of_N_val, Hfl, N2Nat.id. unfold fp, pad_left.
      rewrite dec_val_zeros, dec_of_N_val.
      replace (c / 10 ^ k * 10 ^ k + c mod 10 ^ k)%N with c.
      2: { pose proof (N.div_mod c (10 ^ k)). lia. }
      f_equal. unfold k. lia.
  - exists (dec_of_N (c * 10 ^ Z.to_N p)), [].
    split; [now rewrite app_nil_r|]. split; [apply dec_of_N_digits|]. split; [constructor|].
    split; [apply dec_of_N_nonempty|]. split.
    + intros r Hr. destruct (dec_of_N_spec (c * 10 ^ Z.to_N p)) as (_ & _ & x & q & E & H0 & H1).
      destruct (N.eq_dec (c * 10 ^ Z.to_N p) 0) as [Hz|Hz].
      * rewrite H0 in Hr by auto. now injection Hr as <-.
      * rewrite Hr in E. injection E as <- <-. exfalso. now apply H1.
    + intros s. rewrite app_nil_r, dec_of_N_val. simpl length. unfold round_dec.
      destruct (Z.ltb_spec (0 - Z.of_nat 0) 0); [lia|]. destruct (Z.ltb_spec p 0); [lia|].
      f_equal. rewrite N2Z.inj_mul, N2Z.inj_pow. rewrite Z2N.id by lia. simpl Z.of_nat.
      change (10 ^ (0 - 0)) with 1. change (Z.of_N 10) with 10. lia.
Qed.

Local Open Scope N_scope.

Lemma digit_not_special c : is_digit c = true ->
  (c =? cMINUS) = false /\ (c =? cDOT) = false /\ (c =? cLE) = false /\ (c =? cUE) = false /\
  is_ws c = false /\ (c =? cDQ) = false.
Proof. unfold is_digit, is_ws. lia. Qed.

(** parse_f64 on the shape [-]ip[.fp]. *)
Lemma parse_f64_fixed (s : bool) ip fp :
  all_digits ip -> all_digits fp -> ip <> [] ->
  parse_f64 ((if s then [cMINUS] else []) ++ ip ++ (if is_empty fp then [] else cDOT :: fp))
  = Some (mk_f64 (round_dec s (dec_val (ip ++ fp)) (0 - Z.of_nat (length fp)))).
Proof.
  intros Hi Hf Hn.
  assert (Hsign : forall r,
    (match (if s then [cMINUS] else []) ++ ip ++ r with
     | c :: r' => if c =? cMINUS then (true, r') else (false, (if s then [cMINUS] else []) ++ ip ++ r)
     | [] => (false, []) end) = (s, ip ++ r)).
  { intros r. destruct s; simpl.
    - reflexivity.
    - destruct ip as [|c ip]; [congruence|]. simpl. inversion Hi; subst.
      destruct (digit_not_special c) as [-> _]; auto. }
  unfold parse_f64. rewrite Hsign.
  rewrite span_digits_app; auto.
  2: { destruct fp; simpl; auto. }
  destruct ip as [|c0 ip0] eqn:Eip; [congruence|]. rewrite <- Eip in *.
  replace (is_empty ip) with false by now rewrite Eip.
  destruct fp as [|f fp]; simpl is_empty; cbv iota.
  - simpl. reflexivity.
  - change (cDOT =? cDOT) with true. cbv iota.
    rewrite <- (app_nil_r (f :: fp)) at 1. rewrite span_digits_app by (auto; exact I).
    reflexivity.
Qed.

Lemma f64_to_string_shape x :
  f64_is_finite x = true -> f64_is_zero x = false ->
  exists (s : bool) ip fp,
    f64_to_string x = (if s then [cMINUS] else []) ++ ip ++ (if is_empty fp then [] else cDOT :: fp) /\
    all_digits ip /\ all_digits fp /\ ip <> [] /\ (forall r, ip = cZERO :: r -> r = []) /\
    parse_f64 (f64_to_string x) = Some x.
Proof.
  intros Hf Hz. unfold f64_to_string, f64_is_finite, f64_is_zero in *.
  destruct x as [sf V]. simpl f64_sf in *. destruct sf as [s|s| |s m e]; try discriminate.
  pose proof (shortest_ok m e s V) as H. destruct (shortest m e) as [c p].
  destruct (format_fixed_spec c p) as (ip & fp & E & Hi & Hp & Hn & Hl & Hr).
  exists s, ip, fp. rewrite E. repeat (split; [assumption || reflexivity|]).
  rewrite parse_f64_fixed by auto. f_equal. rewrite Hr, H.
  apply f64_eq. now apply mk_f64_sf.
Qed.
