(** Integers and number literals of serde_json. *)
From Coq Require Import SpecFloat.
From Verif Require Import Chars Floats Json JsonInd NumProof Spec JsonText SpecJson JsonNumProof JsonTextProof JsonGrammar SpecSerde Serde
  SerdeProof.

Local Open Scope Z_scope.

Lemma pow2_max e : pow2 e = 2 ^ Z.max 0 e.
Proof. unfold pow2. destruct (Z.ltb_spec e 0); [replace (Z.max 0 e) with 0 by lia; reflexivity|now replace (Z.max 0 e) with e by lia]. Qed.

Lemma f64_of_Z_eq z : f64_of_Z z = mk_f64 (round_q (z <? 0) (Z.abs z) 1).
Proof.
  unfold f64_of_Z, round_dec. change (0 <? 0) with false. cbv iota. change (10 ^ 0) with 1. now rewrite Z.mul_1_r, N2Z.inj_abs_N.
Qed.

(** If some double is the integer, the conversion gives it. *)
Lemma denotes_of_Z x z : denotes x z -> z <> 0 -> f64_of_Z z = x.
Proof.
  unfold denotes. intros H Hz. destruct (f64_sf x) as [s|s| |s m e] eqn:E; try contradiction.
  rewrite f64_of_Z_eq. rewrite <- (mk_f64_id x), E. f_equal.
  pose proof (f64_ok x) as V. rewrite E in V. rewrite <- !pow2_max in H. pose proof (pow2_pos e). pose proof (pow2_pos (- e)).
  assert (Hs : (z <? 0) = s) by (destruct s; destruct (Z.ltb_spec z 0); try reflexivity; nia).
  rewrite Hs. apply round_q_exact; [exact V|lia|]. destruct s; [rewrite Z.abs_neq by lia|rewrite Z.abs_eq by lia]; nia.
Qed.
Lemma of_Z_zero : f64_of_Z 0 = f64_zero.
Proof. apply f64_eq. reflexivity. Qed.
Lemma denotes_exact x z : denotes x z -> denotes (f64_of_Z z) z.
Proof.
  intros H. destruct (Z.eq_dec z 0) as [->|Hz]; [rewrite of_Z_zero; reflexivity|].
  now rewrite (denotes_of_Z x z H Hz).
Qed.
Lemma denotes_inj x y z : denotes x z -> denotes y z -> z <> 0 -> x = y.
Proof. intros Hx Hy Hz. rewrite <- (denotes_of_Z x z Hx Hz). now apply denotes_of_Z. Qed.
Lemma denotes_finite x z : denotes x z -> f64_is_finite x = true.
Proof. unfold denotes, f64_is_finite. destruct (f64_sf x); try contradiction; reflexivity. Qed.

(** Which integers are doubles: at most 53 bits, shifted. *)
Lemma representable m k : 0 < m < 2 ^ 53 -> 0 <= k -> Z.log2 m + k <= 1023 -> forall s : bool,
  exists x, denotes x ((if s then -1 else 1) * (m * 2 ^ k)).
Proof.
  intros Hm Hk Hmax s. set (j := 52 - Z.log2 m).
  pose proof (Z.log2_nonneg m). pose proof (Z.log2_spec m ltac:(lia)) as [L1 L2].
  assert (Hj : 0 <= j) by (assert (Z.log2 m < 53) by (apply Z.log2_lt_pow2; lia); unfold j; lia).
  assert (P : 0 < 2 ^ j) by (apply Z.pow_pos_nonneg; lia).
  destruct (m * 2 ^ j) as [|p|p] eqn:Ep; try nia.
  assert (Hl : Z.log2 (Zpos p) = 52).
  { rewrite <- Ep, Z.log2_mul_pow2 by lia. unfold j. lia. }
  assert (V : valid_binary prec64 emax64 (S754_finite s p (k - j)) = true).
  { cbn [valid_binary]. unfold bounded, canonical_mantissa, fexp, emin, prec64, emax64. rewrite digits2_pos_log2, Hl.
    apply andb_true_intro. split; [apply Zeq_is_eq_bool; unfold j; lia|apply Z.leb_le; unfold j; lia]. }
  exists (F64 _ V). unfold denotes. cbn [f64_sf]. rewrite <- !pow2_max.
  assert (S1 : 2 ^ k * pow2 (- (k - j)) = 2 ^ j * pow2 (k - j)).
  { unfold pow2. destruct (Z.ltb_spec (- (k - j)) 0), (Z.ltb_spec (k - j) 0); try lia.
    - rewrite <- Z.pow_add_r by lia. rewrite Z.mul_1_r. f_equal. lia.
    - rewrite <- Z.pow_add_r by lia. rewrite Z.mul_1_r. f_equal. lia.
    - replace (k - j) with 0 by lia. replace k with j by lia. reflexivity. }
  destruct s.
  - replace (Z.neg p) with (- (m * 2 ^ j)) by lia.
    replace (-1 * (m * 2 ^ k) * pow2 (- (k - j))) with (- (m * (2 ^ k * pow2 (- (k - j))))) by ring. rewrite S1. ring.
  - replace (Z.pos p) with (m * 2 ^ j) by lia.
    replace (1 * (m * 2 ^ k) * pow2 (- (k - j))) with (m * (2 ^ k * pow2 (- (k - j)))) by ring. rewrite S1. ring.
Qed.
Lemma representable_53 z : Z.abs z <= 2 ^ 53 -> exists x, denotes x z.
Proof.
  intros H. destruct (Z.eq_dec z 0) as [->|Hz]; [exists f64_zero; reflexivity|].
  destruct (Z.eq_dec (Z.abs z) (2 ^ 53)) as [E|Hne].
  - destruct (representable 1 53 ltac:(lia) ltac:(lia) ltac:(cbn; lia) (z <? 0)) as [x Hx].
    exists x. replace z with ((if z <? 0 then -1 else 1) * (1 * 2 ^ 53)); [exact Hx|]. destruct (Z.ltb_spec z 0); lia.
  - assert (Z.log2 (Z.abs z) < 53) by (apply Z.log2_lt_pow2; lia).
    destruct (representable (Z.abs z) 0 ltac:(lia) ltac:(lia) ltac:(lia) (z <? 0)) as [x Hx].
    exists x. replace z with ((if z <? 0 then -1 else 1) * (Z.abs z * 2 ^ 0)); [exact Hx|]. rewrite Z.mul_1_r. destruct (Z.ltb_spec z 0); lia.
Qed.

(** * Literals *)

Lemma span_digits_all s a b : span_digits s = (a, b) -> s = a ++ b /\ all_digits a.
Proof. intros H. apply span_digits_forallb in H as [-> H]. split; [reflexivity|]. apply Forall_forall. now apply forallb_forall. Qed.

(** A literal is an integer, or has one of the three marks. *)
Lemma numeral_shape n : json_numeral n = true ->
  exists (s : bool) ds r, n = (if s then [cMINUS] else []) ++ ds ++ r /\ all_digits ds /\ ds <> [] /\
    match r with [] => True | c :: _ => c = cDOT \/ c = cLE \/ c = cUE end.
Proof.
  unfold json_numeral. intros H.
  assert (K : forall s, (let (ip, r) := span_digits s in
       int_part ip && match r with
       | c :: r' => if (c =? cDOT)%N then let (fp, r'') := span_digits r' in negb (is_empty fp) && exp_part r'' else exp_part r
       | [] => true end) = true ->
     exists ds r, s = ds ++ r /\ all_digits ds /\ ds <> [] /\ match r with [] => True | c :: _ => c = cDOT \/ c = cLE \/ c = cUE end).
  { clear n H. intros s H. destruct (span_digits s) as [ip r] eqn:Es. apply span_digits_all in Es as [-> Hip].
    apply andb_prop in H as [Hint H]. exists ip, r. split; [reflexivity|]. split; [exact Hip|].
    split; [destruct ip; [discriminate|discriminate]|]. destruct r as [|c r]; [exact I|].
    destruct (N.eqb_spec c cDOT) as [->|]; [now left|]. right. cbn [exp_part] in H. apply andb_prop in H as [H _].
    apply orb_prop in H as [H|H]; apply N.eqb_eq in H; auto. }
  destruct n as [|c n].
  - destruct (K [] H) as (ds & r & E & _ & Hn & _). destruct ds; [congruence|discriminate].
  - destruct (N.eqb_spec c cMINUS) as [->|].
    + destruct (K n H) as (ds & r & -> & Hr). exists true, ds, r. auto.
    + destruct (K (c :: n) H) as (ds & r & E & Hr). exists false, ds, r. auto.
Qed.
Lemma digit_no_mark c : is_digit c = true -> ((c =? cDOT) || (c =? cLE) || (c =? cUE))%N = false.
Proof. unfold is_digit. lia. Qed.
Lemma digits_integral ds : all_digits ds -> is_integral ds = true.
Proof.
  intros H. unfold is_integral. apply negb_true_iff. induction H as [|c ds Hc _ IH]; [reflexivity|]. cbn [existsb].
  now rewrite (digit_no_mark c Hc).
Qed.
Lemma digits_of_app ds r : is_integral (ds ++ r) = true -> all_digits ds ->
  match r with [] => True | c :: _ => c = cDOT \/ c = cLE \/ c = cUE end -> r = [].
Proof.
  intros H Hd Hr. destruct r as [|c r]; [reflexivity|]. unfold is_integral in H. rewrite existsb_app in H. cbn [existsb] in H.
  replace ((c =? cDOT) || (c =? cLE) || (c =? cUE))%N with true in H.
  - rewrite orb_true_r in H. discriminate.
  - destruct Hr as [->|[->| ->]]; reflexivity.
Qed.

Lemma word_digits (s : bool) ds : all_digits ds -> ds <> [] ->
  word_literal ((if s then [cMINUS] else []) ++ ds) = (dec_val ds <? 2 ^ 64)%N.
Proof.
  intros Hd Hn. unfold word_literal. destruct s; cbn [app].
  - change (cMINUS =? cMINUS)%N with true. cbv iota. now rewrite forallb_digits.
  - destruct ds as [|c ds]; [congruence|]. inversion Hd; subst.
    replace (c =? cMINUS)%N with false by (unfold is_digit in *; lia). rewrite forallb_digits by exact Hd. reflexivity.
Qed.
Lemma word_marked (s : bool) ds c r : ds <> [] -> c = cDOT \/ c = cLE \/ c = cUE -> all_digits ds ->
  word_literal ((if s then [cMINUS] else []) ++ ds ++ c :: r) = false.
Proof.
  intros Hn Hc Hd. unfold word_literal.
  assert (Hx : is_digit c = false) by (destruct Hc as [->|[->| ->]]; reflexivity).
  destruct s; cbn [app].
  - change (cMINUS =? cMINUS)%N with true. cbv iota. rewrite forallb_app. cbn [forallb]. rewrite Hx. now rewrite andb_false_r.
  - destruct ds as [|d ds]; [congruence|]. cbn [app]. inversion Hd; subst.
    replace (d =? cMINUS)%N with false by (unfold is_digit in *; lia).
    change (d :: ds ++ c :: r) with ((d :: ds) ++ c :: r). rewrite forallb_app. cbn [forallb]. rewrite Hx. now rewrite !andb_false_r.
Qed.
Lemma parse_digits (s : bool) ds : all_digits ds -> ds <> [] ->
  parse_f64 ((if s then [cMINUS] else []) ++ ds) = Some (mk_f64 (round_dec s (dec_val ds) 0)).
Proof.
  intros Hd Hn. rewrite <- (app_nil_r ds) at 1. unfold parse_f64.
  rewrite (sign_match s ds _ (fun a b => (a, b)) (false, [])) by auto. rewrite span_digits_app by (auto; exact I).
  assert (He : is_empty ds = false) by (destruct ds; auto; congruence). rewrite He. cbn. now rewrite app_nil_r.
Qed.

Section Read.
Variable rf : str -> option f64.

Theorem serde_number_value n : json_numeral n = true -> option_map as_f64 (serde_number rf n) = reading rf n.
Proof.
  intros H. destruct (numeral_shape n H) as (s & ds & r & -> & Hd & Hn & Hr). clear H.
  assert (Hm : forall n, option_map as_f64 (option_map SFloat (rf n)) = rf n) by (intros n; now destruct (rf n)).
  destruct r as [|c r].
  - rewrite app_nil_r. unfold reading. rewrite word_digits, parse_digits by auto. unfold serde_number.
    assert (Hi : is_integral ((if s then [cMINUS] else []) ++ ds) = true).
    { destruct s; cbn [app]; [|now apply digits_integral]. exact (digits_integral ds Hd). }
    rewrite Hi. destruct s; cbn [app].
    + change (cMINUS =? cMINUS)%N with true. cbv iota zeta. destruct (N.eqb_spec (dec_val ds) 0) as [->|Hz].
      { cbn [option_map as_f64]. change (0 <? 2 ^ 64)%N with true. cbv iota. reflexivity. }
      assert (G : f64_of_Z (- Z.of_N (dec_val ds)) = mk_f64 (round_dec true (dec_val ds) 0)).
      { unfold f64_of_Z. replace (- Z.of_N (dec_val ds) <? 0) with true by lia.
        replace (Z.abs_N (- Z.of_N (dec_val ds))) with (dec_val ds) by lia. reflexivity. }
      change (2 ^ 64)%N with 18446744073709551616%N.
      destruct (N.leb_spec (dec_val ds) 9223372036854775808).
      { replace (dec_val ds <? 18446744073709551616)%N with true by lia. cbn [option_map as_f64]. now rewrite G. }
      destruct (N.leb_spec (dec_val ds) 18446744073709551615).
      { replace (dec_val ds <? 18446744073709551616)%N with true by lia. cbn [option_map as_f64]. now rewrite G. }
      replace (dec_val ds <? 18446744073709551616)%N with false by lia. apply Hm.
    + destruct ds as [|c ds]; [congruence|]. inversion Hd; subst.
      replace (c =? cMINUS)%N with false by (unfold is_digit in *; lia). cbv zeta.
      change (2 ^ 64)%N with 18446744073709551616%N.
      destruct (N.leb_spec (dec_val (c :: ds)) 18446744073709551615).
      { replace (dec_val (c :: ds) <? 18446744073709551616)%N with true by lia. cbn [option_map as_f64]. f_equal.
        unfold f64_of_Z. replace (Z.of_N (dec_val (c :: ds)) <? 0) with false by lia. now rewrite N2Z.id || f_equal; f_equal; lia. }
      replace (dec_val (c :: ds) <? 18446744073709551616)%N with false by lia. apply Hm.
  - unfold reading. rewrite word_marked by auto. unfold serde_number.
    replace (is_integral _) with false; [apply Hm|].
    symmetry. unfold is_integral. apply negb_false_iff. rewrite !existsb_app. cbn [existsb].
    replace ((c =? cDOT) || (c =? cLE) || (c =? cUE))%N with true; [now rewrite !orb_true_r|].
    destruct Hr as [->|[->| ->]]; reflexivity.
Qed.
End Read.
