(** Printing finds the shortest decimal that reads back, and the nearest of those. *)
From Coq Require Import SpecFloat QArith Qabs Qpower Lqa.
From Verif Require Import Chars Floats NumProof JsonNumProof Spec SpecText TextProof SpecNum RoundProof.

Local Open Scope Q_scope.

Lemma p10_succ a : 10 ^ (a + 1) == 10 * 10 ^ a.
Proof. rewrite p10_plus. change (10 ^ 1) with 10. ring. Qed.
Lemma p10_lt_inv a b : 10 ^ a < 10 ^ b -> (a < b)%Z.
Proof. intros H. apply Z.nle_gt. intros L. apply p10_le in L. lra. Qed.
Lemma p2_lt_inv a b : 2 ^ a < 2 ^ b -> (a < b)%Z.
Proof. intros H. apply Z.nle_gt. intros L. apply p2_le in L. lra. Qed.

(** * The number of digits before the point *)

Definition estimate (l : Z) : Z := (l * 30103 / 100000)%Z.
Definition estimate_ok (l : Z) : bool :=
  let t := estimate l in
  if (l <? 0)%Z then ((t <=? 0) && (2 ^ (- l) <=? 10 * 10 ^ (- t)) && (10 ^ (- t) * 2 <=? 2 ^ (- l) * 10 ^ 3))%Z
  else ((0 <=? t) && (10 ^ t <=? 10 * 2 ^ l) && (2 ^ l * 2 <=? 10 ^ t * 10 ^ 3))%Z.
Fixpoint all_from (k : nat) (a : Z) (f : Z -> bool) : bool :=
  match k with O => true | S k' => f a && all_from k' (a + 1)%Z f end.
Lemma all_from_spec k a f : all_from k a f = true -> forall z, (a <= z < a + Z.of_nat k)%Z -> f z = true.
Proof.
  revert a. induction k as [|k IH]; intros a H z Hz; [lia|]. cbn [all_from] in H. apply andb_prop in H as [H1 H2].
  destruct (Z.eq_dec z a) as [->|]; auto. apply (IH (a + 1)%Z); auto. lia.
Qed.
Lemma estimate_all : all_from (N.to_nat 2100) (-1076) estimate_ok = true.
Proof. vm_compute. reflexivity. Qed.
Lemma estimate_spec l : (-1074 <= l <= 1023)%Z -> 10 ^ (estimate l - 1) <= 2 ^ l /\ 2 ^ (l + 1) <= 10 ^ (estimate l + 3).
Proof.
  intros Hl. assert (H : estimate_ok l = true) by (apply (all_from_spec _ _ _ estimate_all); lia).
  unfold estimate_ok in H. set (t := estimate l) in *. clearbody t. unfold Z.sub. rewrite !p10_plus, p2_succ.
  change (10 ^ (- (1))) with (1 # 10). change (10 ^ 3) with 1000. pose proof (p10_pos t) as P. pose proof (p2_pos l) as P2.
  destruct (Z.ltb_spec l 0) as [L|L]; apply andb_prop in H as [H C]; apply andb_prop in H as [A B]; apply Z.leb_le in A, B, C.
  - apply inject_le in B, C. rewrite inject_Z_mult in B. rewrite (inject_Z_mult (10 ^ (- t))), (inject_Z_mult (2 ^ (- l))) in C. change (inject_Z (10 ^ 3)) with 1000 in C.
    rewrite <- (p10_Z (- t)), <- (p2_Z (- l)) in B, C by lia.
    rewrite p10_opp, Qpower_opp in B, C. change (inject_Z 10) with 10 in *. change (inject_Z 2) with 2 in *.
    generalize dependent (10 ^ t). intros a. generalize dependent (2 ^ l). intros b. intros.
    split.
    + assert (B' : / b * (a * b) <= (10 * / a) * (a * b)) by (apply Qmult_le_compat_r; [exact B|nra]).
      assert (E1 : / b * (a * b) == a) by (field; lra). assert (E2 : (10 * / a) * (a * b) == 10 * b) by (field; lra). lra.
    + assert (C' : (/ a * 2) * (a * b) <= (/ b * 1000) * (a * b)) by (apply Qmult_le_compat_r; [exact C|nra]).
      assert (E1 : (/ a * 2) * (a * b) == 2 * b) by (field; lra). assert (E2 : (/ b * 1000) * (a * b) == 1000 * a) by (field; lra). lra.
  - apply inject_le in B, C. rewrite inject_Z_mult in B. rewrite (inject_Z_mult (2 ^ l)), (inject_Z_mult (10 ^ t)) in C. change (inject_Z (10 ^ 3)) with 1000 in C.
    rewrite <- (p10_Z t), <- (p2_Z l) in B, C by lia.
    change (inject_Z 10) with 10 in *. change (inject_Z 2) with 2 in *. lra.
Qed.

Lemma below_ten n d t : (0 < d)%Z ->
  (if (t <? 0)%Z then (n * 10 ^ (- t) <? d)%Z else (n <? d * 10 ^ t)%Z) = true <-> ratio n d < 10 ^ t.
Proof.
  intros Hd. pose proof (inject_pos d Hd) as P. pose proof (p10_pos t) as P2. unfold ratio.
  assert (G : inject_Z n / inject_Z d < 10 ^ t <-> inject_Z n < inject_Z d * 10 ^ t).
  { split; intros H.
    - apply (Qmult_lt_r _ _ (inject_Z d) P) in H. setoid_replace (inject_Z n / inject_Z d * inject_Z d) with (inject_Z n) in H by (field; lra). lra.
    - apply Qlt_shift_div_r; [exact P|]. lra. }
  rewrite G. destruct (Z.ltb_spec t 0) as [L|L]; rewrite Z.ltb_lt, inject_lt, inject_Z_mult, <- p10_Z by lia.
  - rewrite p10_opp. set (a := 10 ^ t) in *. clearbody a. split; intros H.
    + apply (Qmult_lt_r _ _ a P2) in H. setoid_replace (inject_Z n * / a * a) with (inject_Z n) in H by (field; lra). exact H.
    + apply (Qmult_lt_r _ _ a P2). setoid_replace (inject_Z n * / a * a) with (inject_Z n) by (field; lra). exact H.
  - reflexivity.
Qed.
Lemma adjust_spec k n d t : (0 < d)%Z -> 10 ^ (t - 1) <= ratio n d -> ratio n d < 10 ^ (t + Z.of_nat k) ->
  10 ^ (adjust_up k n d t - 1) <= ratio n d /\ ratio n d < 10 ^ adjust_up k n d t.
Proof.
  intros Hd. revert t. induction k as [|k IH]; intros t L U; cbn [adjust_up].
  - rewrite Z.add_0_r in U. auto.
  - cbv zeta. destruct (if (t <? 0)%Z then _ else _) eqn:E.
    + apply (below_ten n d t Hd) in E. auto.
    + apply IH.
      * replace (t + 1 - 1)%Z with t by lia. apply Qnot_lt_le. intros F. apply (below_ten n d t Hd) in F. congruence.
      * replace (t + 1 + Z.of_nat k)%Z with (t + Z.of_nat (S k))%Z by lia. exact U.
Qed.
Lemma dec_exponent_spec n d : (0 < n)%Z -> (0 < d)%Z -> (-1074 <= flog2_q n d <= 1023)%Z ->
  10 ^ (dec_exponent n d - 1) <= ratio n d /\ ratio n d < 10 ^ dec_exponent n d.
Proof.
  intros Hn Hd Hl. pose proof (ratio_log n d Hn Hd) as [R1 R2]. destruct (estimate_spec _ Hl) as [E1 E2].
  unfold dec_exponent. cbv zeta. fold (estimate (flog2_q n d)). apply adjust_spec; [exact Hd|lra|].
  apply Qlt_le_trans with (2 ^ (flog2_q n d + 1)); [exact R2|]. eapply Qle_trans; [exact E2|]. apply p10_le. lia.
Qed.

Lemma has_digits_mono j k q : (j <= k)%Z -> has_digits j q -> has_digits k q.
Proof.
  intros L (c & p & Hc & E). exists c, p. split; [|exact E].
  assert (10 ^ j <= 10 ^ k)%Z by (apply Z.pow_le_mono_r; lia). lia.
Qed.
Lemma has_digits_pos j q : has_digits j q -> (1 <= j)%Z.
Proof.
  intros (c & p & Hc & _). destruct (Z.le_gt_cases 1 j); auto. exfalso.
  destruct (Z.eq_dec j 0) as [->|]; [change (10 ^ 0)%Z with 1%Z in Hc; lia|]. rewrite Z.pow_neg_r in Hc by lia. lia.
Qed.
Lemma has_digits_wd j q q' : q == q' -> has_digits j q -> has_digits j q'.
Proof. intros E (c & p & Hc & E'). exists c, p. split; [exact Hc|]. rewrite <- E', E. reflexivity. Qed.

(** * One positive double *)

Ltac qcases := match goal with |- ?a < ?b \/ _ => destruct (Qlt_le_dec a b); [left; lra|right; split; [lra|let A := fresh in intros A; repeat match goal with H : (forall z, _ = true) -> _ |- _ => specialize (H A) end; lra]] end.

Section Short.
Variable up : Z -> bool.
Variables (m : positive) (e : Z).
Hypothesis V : valid_binary prec64 emax64 (S754_finite false m e) = true.
Let x : f64 := F64 (S754_finite false m e) V.
Let n : Z := fst (f64_frac m e).
Let d : Z := snd (f64_frac m e).
Let r : Q := inject_Z (Zpos m) * 2 ^ e.

Lemma r_pos : 0 < r.
Proof. unfold r. pose proof (p2_pos e). assert (0 < inject_Z (Zpos m)) by (apply inject_pos; lia). nra. Qed.
Lemma n_pos : (0 < n)%Z.
Proof. unfold n, f64_frac; cbn [fst]. pose proof (pow2_pos e). nia. Qed.
Lemma d_pos : (0 < d)%Z.
Proof. unfold d, f64_frac; cbn [snd]. apply pow2_pos. Qed.
Lemma r_ratio : ratio n d == r.
Proof.
  unfold ratio, r, n, d, f64_frac; cbn [fst snd]. rewrite inject_Z_mult, (pow2_ratio e). pose proof (inject_pos _ (pow2_pos (- e))) as P. field. lra.
Qed.
Lemma m_bounds : (Zpos m < 2 ^ 53)%Z /\ (-1074 <= e <= 971)%Z /\ ((-1074 < e)%Z -> (2 ^ 52 <= Zpos m)%Z).
Proof.
  destruct (valid_finite _ _ _ V) as (A1 & A2 & A3). split; [exact A3|]. split; [lia|]. intros H. apply Z.log2_le_pow2; lia.
Qed.
Lemma x_value : fvalue x = Some r.
Proof. reflexivity. Qed.
Lemma r_max : r <= (inject_Z (2 ^ 53) - 1) * 2 ^ 971.
Proof.
  destruct m_bounds as (A & B & _). unfold r. apply Qle_trans with ((inject_Z (2 ^ 53) - 1) * 2 ^ e).
  - apply Qmult_le_compat_r; [|apply Qlt_le_weak, p2_pos]. change (inject_Z (2 ^ 53) - 1) with (inject_Z (2 ^ 53) + inject_Z (- (1))).
    rewrite <- inject_Z_plus. apply (proj1 (inject_le _ _)). lia.
  - rewrite !(Qmult_comm (inject_Z (2 ^ 53) - 1)). apply Qmult_le_compat_r; [apply p2_le; lia|]. apply Qle_bool_iff; reflexivity.
Qed.
Lemma r_overflow : r < overflow.
Proof. pose proof r_max. rewrite overflow_alt. pose proof (p2_pos 971). set (u := 2 ^ 971) in *. clearbody u. lra. Qed.
Lemma x_self : rounds_to r x.
Proof. apply rounds_self; [exact x_value|]. pose proof r_overflow. pose proof r_pos. pose proof overflow_pos. lra. Qed.
Lemma log_range : (-1074 <= flog2_q n d <= 1023)%Z.
Proof.
  pose proof (ratio_log n d n_pos d_pos) as [R1 R2]. rewrite r_ratio in R1, R2. destruct m_bounds as (A & B & _). split.
  - assert (2 ^ (-1074) < 2 ^ (flog2_q n d + 1)); [|apply p2_lt_inv in H; lia].
    eapply Qle_lt_trans; [|exact R2]. unfold r. apply Qle_trans with (2 ^ e); [apply p2_le; lia|].
    assert (1 <= inject_Z (Zpos m)) by (change 1 with (inject_Z 1); apply (proj1 (inject_le _ _)); lia). pose proof (p2_pos e). nra.
  - assert (2 ^ flog2_q n d < 2 ^ 1024); [|apply p2_lt_inv in H; lia].
    eapply Qle_lt_trans; [exact R1|]. eapply Qlt_trans; [exact r_overflow|]. unfold overflow. pose proof (p2_pos 970). lra.
Qed.
Let t : Z := dec_exponent n d.
Lemma t_spec : 10 ^ (t - 1) <= r /\ r < 10 ^ t.
Proof. rewrite <- r_ratio. apply dec_exponent_spec; [exact n_pos|exact d_pos|exact log_range]. Qed.

(** The test the search uses. *)
Lemma ok_spec c p : sf_eqb (round_dec false c p) (S754_finite false m e) = true <-> rounds_to (inject_Z (Z.of_N c) * 10 ^ p) x.
Proof.
  rewrite sf_eqb_eq. pose proof (round_dec_rounds false c p) as R.
  assert (R' : rounds_to (inject_Z (Z.of_N c) * 10 ^ p) (mk_f64 (round_dec false c p))) by (eapply rounds_compat; [|exact R]; cbv iota; ring).
  split.
  - intros E. rewrite E in R'. replace x with (mk_f64 (S754_finite false m e)); [exact R'|]. apply f64_eq. now rewrite mk_f64_sf.
  - intros H. assert (E : x = mk_f64 (round_dec false c p)).
    { apply (rounds_unique_signed _ _ _ H R'). rewrite mk_f64_sf by apply round_dec_valid. rewrite round_dec_sf_sign. reflexivity. }
    rewrite <- (mk_f64_sf (round_dec false c p)) by apply round_dec_valid. now rewrite <- E.
Qed.

(** Whatever rounds to a positive double is positive. *)
Lemma rounds_pos q : rounds_to q x -> 0 < q.
Proof.
  pose proof r_pos as P. intros [[A B]|[[A B]|[A B]]]; try discriminate. destruct B as (r0 & E & H). rewrite x_value in E. injection E as <-.
  destruct (H f64_zero 0 eq_refl) as [H1 _].
  destruct (Qabs_cases (q - r)) as [[? Q1]|[? Q1]]; rewrite Q1 in H1; destruct (Qabs_cases (q - 0)) as [[? Q2]|[? Q2]]; rewrite Q2 in H1; lra.
Qed.
Lemma between a b c : a <= b -> b <= c -> rounds_to a x -> rounds_to c x -> rounds_to b x.
Proof. intros H1 H2. now apply rounds_between. Qed.

(** [as_good] if half way is always up. *)
Definition good (q q' : Q) : Prop :=
  Qabs (q - r) < Qabs (q' - r) \/ (Qabs (q - r) == Qabs (q' - r) /\ ((forall z, up z = true) -> Qabs q' <= Qabs q)).

(** * The grid of decimals with [j] digits *)

Section Grid.
Variable j : Z.
Hypothesis Hj : (1 <= j)%Z.
Let p : Z := (t - j)%Z.
Let nn : Z := if (p <? 0)%Z then (n * 10 ^ (- p))%Z else n.
Let dd : Z := if (p <? 0)%Z then d else (d * 10 ^ p)%Z.
Let lo : Z := (nn / dd)%Z.
Let rm : Z := (nn mod dd)%Z.
Let u : Q := 10 ^ p.

Lemma u_pos : 0 < u.
Proof. apply p10_pos. Qed.
Lemma dd_pos : (0 < dd)%Z.
Proof. unfold dd. pose proof d_pos. destruct (Z.ltb_spec p 0); auto. assert (0 < 10 ^ p)%Z by (apply Z.pow_pos_nonneg; lia). nia. Qed.
Lemma grid_ratio : r * inject_Z dd == inject_Z nn * u.
Proof.
  rewrite <- r_ratio. unfold ratio, nn, dd, u. pose proof (inject_pos _ d_pos) as P. destruct (Z.ltb_spec p 0) as [L|L].
  - rewrite inject_Z_mult, <- (p10_Z (- p)), p10_opp by lia. pose proof (p10_pos p). field. split; lra.
  - rewrite inject_Z_mult, <- (p10_Z p) by lia. field. lra.
Qed.
Lemma grid_rest : (r - inject_Z lo * u) * inject_Z dd == inject_Z rm * u.
Proof.
  assert (E : nn = (dd * lo + rm)%Z) by (apply Z.div_mod; pose proof dd_pos; lia).
  setoid_replace ((r - inject_Z lo * u) * inject_Z dd) with (r * inject_Z dd - inject_Z lo * u * inject_Z dd) by ring.
  rewrite grid_ratio, E, inject_Z_plus, inject_Z_mult. ring.
Qed.
Lemma rm_range : (0 <= rm < dd)%Z.
Proof. apply Z.mod_pos_bound, dd_pos. Qed.
Lemma lo_le : inject_Z lo * u <= r.
Proof.
  pose proof grid_rest as G. pose proof rm_range as R. pose proof (inject_pos _ dd_pos) as D. pose proof u_pos as U.
  assert (P : 0 <= inject_Z rm) by (change 0 with (inject_Z 0); apply (proj1 (inject_le _ _)); lia).
  apply Qnot_lt_le. intros F. assert ((r - inject_Z lo * u) * inject_Z dd < 0) by nra. nra.
Qed.
Lemma hi_gt : r < (inject_Z lo + 1) * u.
Proof.
  pose proof grid_rest as G. pose proof rm_range as R. pose proof (inject_pos _ dd_pos) as D. pose proof u_pos as U.
  assert (P : inject_Z rm < inject_Z dd) by (apply (proj1 (inject_lt _ _)); lia).
  apply Qnot_le_lt. intros F. assert (u * inject_Z dd <= (r - inject_Z lo * u) * inject_Z dd) by (apply Qmult_le_compat_r; lra). nra.
Qed.
Lemma half_lt : (2 * rm < dd)%Z <-> 2 * (r - inject_Z lo * u) < u.
Proof.
  pose proof grid_rest as G. pose proof (inject_pos _ dd_pos) as D. pose proof u_pos as U.
  rewrite inject_lt, inject_Z_mult. change (inject_Z 2) with 2. split; intros H.
  - apply (Qmult_lt_r _ _ (inject_Z dd) D). setoid_replace (2 * (r - inject_Z lo * u) * inject_Z dd) with (2 * ((r - inject_Z lo * u) * inject_Z dd)) by ring.
    rewrite G. nra.
  - apply (Qmult_lt_r _ _ u U). apply (Qmult_lt_r _ _ (inject_Z dd) D) in H. setoid_replace (2 * (r - inject_Z lo * u) * inject_Z dd) with (2 * ((r - inject_Z lo * u) * inject_Z dd)) in H by ring.
    rewrite G in H. lra.
Qed.
Definition below : bool := ((2 * rm <? dd) || ((2 * rm =? dd) && negb (up lo)))%Z.
Lemma below_true : below = true -> 2 * (r - inject_Z lo * u) <= u /\ ((forall z, up z = true) -> 2 * (r - inject_Z lo * u) < u).
Proof.
  unfold below. intros H. apply orb_true_iff in H as [H|H].
  - apply Z.ltb_lt in H. apply half_lt in H. split; [lra|auto].
  - apply andb_true_iff in H as [H1 H2]. apply Z.eqb_eq in H1. split; [|intros A; rewrite A in H2; discriminate].
    pose proof grid_rest as G. pose proof (inject_pos _ dd_pos) as D. rewrite <- H1, inject_Z_mult in G, D. change (inject_Z 2) with 2 in *.
    set (a := inject_Z rm) in *. set (b := r - inject_Z lo * u) in *. clearbody a b. pose proof u_pos. nra.
Qed.
Lemma below_false : below = false -> u <= 2 * (r - inject_Z lo * u).
Proof.
  unfold below. intros H. apply orb_false_iff in H as [H _]. apply Z.ltb_ge in H. apply Qnot_lt_le. intros F. apply half_lt in F. lia.
Qed.
Lemma lo_range : (10 ^ (j - 1) <= lo < 10 ^ j)%Z.
Proof.
  pose proof t_spec as [T1 T2]. pose proof lo_le as L. pose proof hi_gt as H. pose proof u_pos as U.
  assert (E1 : 10 ^ (t - 1) == inject_Z (10 ^ (j - 1)) * u).
  { rewrite <- p10_Z by lia. unfold u. rewrite <- p10_plus. now replace (j - 1 + p)%Z with (t - 1)%Z by (unfold p; lia). }
  assert (E2 : 10 ^ t == inject_Z (10 ^ j) * u).
  { rewrite <- p10_Z by lia. unfold u. rewrite <- p10_plus. now replace (j + p)%Z with t by (unfold p; lia). }
  rewrite E1 in T1. rewrite E2 in T2. split.
  - assert (A : inject_Z (10 ^ (j - 1)) * u < (inject_Z lo + 1) * u) by lra. apply (proj1 (Qmult_lt_r _ _ u U)) in A.
    change 1 with (inject_Z 1) in A. rewrite <- inject_Z_plus in A. apply (proj2 (inject_lt _ _)) in A. apply Z.lt_succ_r. rewrite <- Z.add_1_r. exact A.
  - assert (A : inject_Z lo * u < inject_Z (10 ^ j) * u) by lra. apply (proj1 (Qmult_lt_r _ _ u U)) in A. now apply (proj2 (inject_lt _ _)) in A.
Qed.

(** Of the decimals with [j] digits, one next to the double is as good as any. *)
Lemma candidate q : rounds_to q x -> has_digits j q ->
  (q <= r /\ rounds_to (inject_Z lo * u) x /\ q <= inject_Z lo * u) \/
  (r < q /\ rounds_to ((inject_Z lo + 1) * u) x /\ (inject_Z lo + 1) * u <= q).
Proof.
  intros Hq (c & k & Hc & E). pose proof (rounds_pos q Hq) as P. rewrite Qabs_pos in E by lra.
  pose proof lo_le as L. pose proof hi_gt as H. pose proof u_pos as U. pose proof x_self as X. pose proof t_spec as [T1 T2].
  destruct (Z.le_gt_cases p k) as [C|C].
  - (* on the grid *)
    assert (E' : q == inject_Z (c * 10 ^ (k - p)) * u).
    { rewrite E, inject_Z_mult, <- p10_Z by lia. unfold u. rewrite <- Qmult_assoc, <- p10_plus. now replace (k - p + p)%Z with k by lia. }
    set (z := (c * 10 ^ (k - p))%Z) in *. destruct (Z.le_gt_cases z lo) as [B|B].
    + left. assert (B' : inject_Z z * u <= inject_Z lo * u) by (apply Qmult_le_compat_r; [apply (proj1 (inject_le _ _)); exact B|lra]).
      split; [lra|]. split; [|lra]. apply (between q _ r); auto. lra.
    + right. assert (B' : (inject_Z lo + 1) * u <= inject_Z z * u).
      { apply Qmult_le_compat_r; [|lra]. change 1 with (inject_Z 1). rewrite <- inject_Z_plus. apply (proj1 (inject_le _ _)). lia. }
      split; [lra|]. split; [|lra]. apply (between r _ q); auto; lra.
  - (* too small for the grid *)
    left. assert (S1 : q < 10 ^ (t - 1)).
    { rewrite E. apply Qlt_le_trans with (inject_Z (10 ^ j) * 10 ^ k).
      - apply Qmult_lt_r; [apply p10_pos|]. apply (proj1 (inject_lt _ _)). lia.
      - rewrite <- p10_Z, <- p10_plus by lia. apply p10_le. unfold p in C. lia. }
    assert (S2 : 10 ^ (t - 1) <= inject_Z lo * u).
    { assert (E1 : 10 ^ (t - 1) == inject_Z (10 ^ (j - 1)) * u).
      { rewrite <- p10_Z by lia. unfold u. rewrite <- p10_plus. now replace (j - 1 + p)%Z with (t - 1)%Z by (unfold p; lia). }
      rewrite E1. apply Qmult_le_compat_r; [|lra]. apply (proj1 (inject_le _ _)). apply lo_range. }
    split; [lra|]. split; [|lra]. apply (between q _ r); auto. lra.
Qed.
Lemma grid_digits z : (0 < z <= 10 ^ j)%Z -> has_digits j (inject_Z z * u).
Proof.
  intros Hz. pose proof u_pos as U. assert (P : 0 < inject_Z z * u) by (pose proof (inject_pos z ltac:(lia)); nra).
  destruct (Z.eq_dec z (10 ^ j)) as [->|].
  - exists 1%Z, t. split. { assert (10 ^ 1 <= 10 ^ j)%Z by (apply Z.pow_le_mono_r; lia). lia. }
    rewrite Qabs_pos by lra. rewrite <- p10_Z by lia. unfold u. rewrite <- p10_plus. replace (j + p)%Z with t by (unfold p; lia). change (inject_Z 1) with 1. ring.
  - exists z, p. split; [lia|]. rewrite Qabs_pos by lra. reflexivity.
Qed.

(** What the search takes at [j] digits. *)
Definition best (q : Q) : Prop :=
  rounds_to q x /\ has_digits j q /\ forall q', rounds_to q' x -> has_digits j q' -> good q q'.
Definition first : Z := if below then lo else (lo + 1)%Z.
Definition second : Z := if below then (lo + 1)%Z else lo.
Lemma first_range : (lo <= first <= lo + 1)%Z.
Proof. unfold first. generalize lo. intros z. destruct below; lia. Qed.
Lemma second_range : (lo <= second <= lo + 1)%Z.
Proof. unfold second. generalize lo. intros z. destruct below; lia. Qed.
Lemma lo_pos : (1 <= lo)%Z.
Proof. pose proof lo_range as LR. assert (0 < 10 ^ (j - 1))%Z by (apply Z.pow_pos_nonneg; lia). generalize dependent lo. intros; lia. Qed.
Lemma first_close : 2 * Qabs (inject_Z first * u - r) <= u.
Proof.
  pose proof lo_le as L. pose proof hi_gt as G. pose proof u_pos as U. unfold first. destruct below eqn:Eh.
  - destruct (below_true Eh) as [HS _]. rewrite Qabs_neg by lra. lra.
  - pose proof (below_false Eh) as HS'.
    rewrite inject_Z_plus. change (inject_Z 1) with 1. rewrite Qabs_pos by lra. lra.
Qed.
Lemma first_best : rounds_to (inject_Z first * u) x -> best (inject_Z first * u).
Proof.
  intros H. split; [exact H|]. pose proof lo_range as LR. pose proof lo_le as L. pose proof hi_gt as G. pose proof u_pos as U.
  split.
  { apply grid_digits. pose proof first_range. pose proof lo_pos. generalize dependent first. generalize dependent lo. intros; lia. }
  intros q' Hq' Hd. pose proof (rounds_pos q' Hq') as Pq. pose proof (rounds_pos _ H) as Pf. unfold good. rewrite (Qabs_pos q'), (Qabs_pos (inject_Z first * u)) by lra. unfold first in *. destruct below eqn:Eh.
  - destruct (below_true Eh) as [HS HS1].
    destruct (candidate q' Hq' Hd) as [(C1 & _ & C3)|(C1 & _ & C3)].
    + rewrite (Qabs_neg (inject_Z lo * u - r)), (Qabs_neg (q' - r)) by lra. qcases.
    + rewrite (Qabs_neg (inject_Z lo * u - r)), (Qabs_pos (q' - r)) by lra. qcases.
  - pose proof (below_false Eh) as HS'.
    rewrite inject_Z_plus. change (inject_Z 1) with 1.
    destruct (candidate q' Hq' Hd) as [(C1 & _ & C3)|(C1 & _ & C3)].
    + rewrite (Qabs_pos ((inject_Z lo + 1) * u - r)), (Qabs_neg (q' - r)) by lra. qcases.
    + rewrite (Qabs_pos ((inject_Z lo + 1) * u - r)), (Qabs_pos (q' - r)) by lra. qcases.
Qed.
Lemma second_best : ~ rounds_to (inject_Z first * u) x -> rounds_to (inject_Z second * u) x -> best (inject_Z second * u).
Proof.
  intros Nf H. split; [exact H|]. pose proof lo_range as LR. pose proof lo_le as L. pose proof hi_gt as G. pose proof u_pos as U.
  split.
  { apply grid_digits. pose proof second_range. pose proof lo_pos. clear Nf. generalize dependent second. generalize dependent lo. intros; lia. }
  intros q' Hq' Hd. pose proof (rounds_pos q' Hq') as Pq. pose proof (rounds_pos _ H) as Pf. unfold good. rewrite (Qabs_pos q'), (Qabs_pos (inject_Z second * u)) by lra.
  unfold first, second in *. destruct below eqn:Eh; rewrite inject_Z_plus in *; change (inject_Z 1) with 1 in *;
    destruct (candidate q' Hq' Hd) as [(C1 & C2 & C3)|(C1 & C2 & C3)]; try contradiction.
  - rewrite (Qabs_pos ((inject_Z lo + 1) * u - r)), (Qabs_pos (q' - r)) by lra. qcases.
  - rewrite (Qabs_neg (inject_Z lo * u - r)), (Qabs_neg (q' - r)) by lra. qcases.
Qed.
Lemma neither : ~ rounds_to (inject_Z first * u) x -> ~ rounds_to (inject_Z second * u) x ->
  forall q', rounds_to q' x -> ~ has_digits j q'.
Proof.
  intros N1 N2 q' Hq' Hd. unfold first, second in *. destruct below eqn:Eh; rewrite inject_Z_plus in *; change (inject_Z 1) with 1 in *;
    destruct (candidate q' Hq' Hd) as [(C1 & C2 & C3)|(C1 & C2 & C3)]; contradiction.
Qed.
End Grid.

(** * Seventeen digits are enough *)

Lemma gap y r' : fvalue y = Some r' -> ~ r' == r -> r * 2 ^ (-53) <= Qabs (r - r').
Proof.
  intros Hy Hne. pose proof r_pos as P. destruct m_bounds as (M1 & M2 & M3).
  assert (P53 : 2 ^ (-53) < 1) by reflexivity. assert (Z53 : 0 < 2 ^ (-53)) by reflexivity.
  destruct (fvalue_nonneg_or_neg y r' Hy) as [(m' & e' & A & B & C & _)|Hneg].
  2: { rewrite Qabs_pos by lra. nra. }
  assert (E53 : inject_Z (2 ^ 53) * 2 ^ (-53) == 1) by reflexivity.
  assert (Mq : inject_Z (Zpos m) < inject_Z (2 ^ 53)) by (apply (proj1 (inject_lt _ _)); exact M1).
  assert (R1 : r * 2 ^ (-53) <= 2 ^ e).
  { unfold r. pose proof (p2_pos e) as U. set (a := inject_Z (Zpos m)) in *. set (b := inject_Z (2 ^ 53)) in *. set (v := 2 ^ e) in *. set (w := 2 ^ (-53)) in *.
    clearbody a b v w. assert (a * w <= 1) by (assert (a * w <= b * w) by (apply Qmult_le_compat_r; lra); lra). nra. }
  destruct (Z.le_gt_cases e e') as [L|L].
  - eapply Qle_trans; [exact R1|].
    assert (E : r - r' == inject_Z (Zpos m - m' * 2 ^ (e' - e)) * 2 ^ e).
    { rewrite C. unfold r, Z.sub. rewrite inject_Z_plus, inject_Z_opp, inject_Z_mult, <- p2_Z by lia.
      assert (X : 2 ^ e' == 2 ^ (e' + - e) * 2 ^ e) by (rewrite <- p2_plus; now replace (e' + - e + e)%Z with e' by lia). rewrite X. ring. }
    rewrite E, Qabs_Qmult, (Qabs_pos (2 ^ e)) by (apply Qlt_le_weak, p2_pos).
    set (z := (Zpos m - m' * 2 ^ (e' - e))%Z) in *.
    assert (Hz : z <> 0%Z).
    { intros F. apply Hne. rewrite F in E. change (inject_Z 0) with 0 in E. rewrite Qmult_0_l in E. lra. }
    assert (1 <= Qabs (inject_Z z)).
    { change (Qabs (inject_Z z)) with (inject_Z (Z.abs z)). change 1 with (inject_Z 1). apply (proj1 (inject_le _ _)). lia. }
    pose proof (p2_pos e). nra.
  - (* a double of a smaller binade *)
    assert (M4 : inject_Z (2 ^ 52) <= inject_Z (Zpos m)) by (apply (proj1 (inject_le _ _)); apply M3; lia).
    assert (C1 : r' <= (inject_Z (2 ^ 53) - 1) * 2 ^ (e - 1)).
    { rewrite C. apply Qle_trans with ((inject_Z (2 ^ 53) - 1) * 2 ^ e').
      - apply Qmult_le_compat_r; [|apply Qlt_le_weak, p2_pos]. change (inject_Z (2 ^ 53) - 1) with (inject_Z (2 ^ 53) + inject_Z (- (1))).
        rewrite <- inject_Z_plus. apply (proj1 (inject_le _ _)). lia.
      - rewrite !(Qmult_comm (inject_Z (2 ^ 53) - 1)). apply Qmult_le_compat_r; [apply p2_le; lia|]. apply Qle_bool_iff; reflexivity. }
    assert (Eh : 2 ^ e == 2 * 2 ^ (e - 1)) by (rewrite <- p2_succ; now replace (e - 1 + 1)%Z with e by lia).
    assert (E52 : inject_Z (2 ^ 53) == 2 * inject_Z (2 ^ 52)) by reflexivity.
    assert (W : inject_Z (2 ^ 52) * 2 ^ (-53) == 1 # 2) by reflexivity.
    unfold r in *. rewrite Eh in *. pose proof (p2_pos (e - 1)) as U.
    set (a := inject_Z (Zpos m)) in *. set (b := inject_Z (2 ^ 52)) in *. set (v := 2 ^ (e - 1)) in *. set (w := 2 ^ (-53)) in *. rewrite E52 in *.
    clearbody a b v w. clear Mq E53 E52 Eh R1 C.
    assert (K : a * w <= (a - b) + (1 # 2)).
    { assert ((a - b) * w <= (a - b) * 1) by nra. lra. }
    assert (K2 : a * (2 * v) * w <= ((a - b) + (1 # 2)) * (2 * v)) by nra.
    assert (r' <= a * (2 * v)) by nra.
    rewrite Qabs_pos by lra. nra.
Qed.
Lemma close_rounds q : Qabs (q - r) < r * 2 ^ (-54) -> rounds_to q x.
Proof.
  intros H. pose proof r_pos as P. pose proof r_max as Mx. assert (W : 2 ^ (-53) == 2 * 2 ^ (-54)) by reflexivity.
  assert (Z54 : 0 < 2 ^ (-54)) by reflexivity. assert (O54 : 2 ^ (-54) < (1 # 2)) by reflexivity. assert (B : Qabs (q - r) < r).
  { eapply Qlt_trans; [exact H|]. nra. }
  left. split.
  - split; [pose proof overflow_pos; destruct (Qabs_cases (q - r)) as [[? Q1]|[? Q1]]; rewrite Q1 in *; lra|].
    rewrite overflow_alt. assert (X : q - r <= Qabs (q - r)) by apply Qle_Qabs.
    assert (Y : (inject_Z (2 ^ 53) - 1) * 2 ^ (-54) <= 1 # 2) by (apply Qle_bool_iff; reflexivity).
    assert (R1 : r * 2 ^ (-54) <= (inject_Z (2 ^ 53) - 1) * 2 ^ 971 * 2 ^ (-54)) by (apply Qmult_le_compat_r; lra).
    pose proof (p2_pos 971) as U. set (b := inject_Z (2 ^ 53)) in *. set (w := 2 ^ (-54)) in *. set (v := 2 ^ 971) in *. clearbody b w v.
    assert ((b - 1) * w * v <= (1 # 2) * v) by (apply Qmult_le_compat_r; lra). lra.
  - exists r. split; [exact x_value|]. intros y r' Hy. destruct (Qeq_dec r' r) as [E|E].
    + assert (T : Qabs (q - r) == Qabs (q - r')) by (apply Qabs_wd; rewrite E; ring). split; [lra|]. intros _. left. now symmetry.
    + pose proof (gap y r' Hy E) as G. rewrite W in G.
      assert (T : Qabs (r - r') <= Qabs (q - r) + Qabs (q - r')).
      { rewrite (Qabs_Qminus q r). eapply Qle_trans; [|apply Qabs_triangle].
        assert (F : r - q + (q - r') == r - r') by ring. rewrite F. apply Qle_refl. }
      split; [lra|]. intros F. exfalso. lra.
Qed.
Lemma seventeen : rounds_to (inject_Z (first 17) * 10 ^ (t - 17)) x.
Proof.
  apply close_rounds. pose proof t_spec as [T1 T2]. assert (J : (1 <= 17)%Z) by lia.
  pose proof (first_close 17 J) as D.
  assert (E : 10 ^ (t - 17) == 10 ^ (t - 1) * 10 ^ (-16)) by (rewrite <- p10_plus; now replace (t - 1 + -16)%Z with (t - 17)%Z by lia).
  set (z := Qabs _) in *. rewrite E in D. clearbody z. assert (K : 10 ^ (-16) < 2 * 2 ^ (-54)) by reflexivity.
  pose proof r_pos. pose proof (p10_pos (-16)) as P16. set (a := 10 ^ (-16)) in *. set (b := 2 ^ (-54)) in *. clearbody a b.
  assert (10 ^ (t - 1) * a <= r * a) by (apply Qmult_le_compat_r; lra). assert (r * a < r * (2 * b)) by nra. lra.
Qed.

(** * The search *)

Definition found (c p : Z) : Prop :=
  rounds_to (inject_Z c * 10 ^ p) x /\ exists J, (0 < c < 10 ^ J)%Z /\
    forall j q', rounds_to q' x -> has_digits j q' -> (J <= j)%Z /\ (j = J -> good (inject_Z c * 10 ^ p) q').
Lemma best_found j q c p : best j q -> (forall q', rounds_to q' x -> ~ has_digits (j - 1) q') ->
  inject_Z c * 10 ^ p == q -> (0 < c < 10 ^ j)%Z -> found c p.
Proof.
  intros (B1 & B2 & B3) N E Hc. split; [eapply rounds_compat; [symmetry; exact E|exact B1]|]. exists j. split; [exact Hc|]. intros j' q' H1 H2. split.
  - destruct (Z.le_gt_cases j j'); auto. exfalso. apply (N q' H1). apply (has_digits_mono j'); auto. lia.
  - intros ->. specialize (B3 q' H1 H2). unfold good in *. rewrite E. exact B3.
Qed.
(** A power of ten is found with one digit. *)
Lemma no_power j z : (1 <= j)%Z -> (0 < z <= 10 ^ j)%Z -> (forall q', rounds_to q' x -> ~ has_digits (j - 1) q') ->
  rounds_to (inject_Z z * 10 ^ (t - j)) x ->
  let cp := if (z =? 10)%Z then (1%N, (t - j + 1)%Z) else (Z.to_N z, (t - j)%Z) in (0 < Z.of_N (fst cp) < 10 ^ j)%Z.
Proof.
  intros Hj Hz N H. cbv zeta. assert (T10 : (10 ^ 1 <= 10 ^ j)%Z) by (apply Z.pow_le_mono_r; lia).
  destruct (Z.eqb_spec z 10) as [->|Hne]; cbn [fst]; [lia|]. rewrite Z2N.id by lia.
  destruct (Z.eq_dec z (10 ^ j)) as [E|]; [|lia]. exfalso. destruct (Z.eq_dec j 1) as [->|]; [lia|].
  apply (N _ H). apply (has_digits_mono 1); [lia|]. exists 1%Z, t. split; [lia|]. rewrite E.
  rewrite <- p10_Z, <- p10_plus by lia. replace (j + (t - j))%Z with t by lia. rewrite Qabs_pos by (apply Qlt_le_weak, p10_pos). change (inject_Z 1) with 1. ring.
Qed.
Lemma norm_value c p0 : (0 <= c)%Z ->
  let cp := if (c =? 10)%Z then (1%N, (p0 + 1)%Z) else (Z.to_N c, p0) in
  inject_Z (Z.of_N (fst cp)) * 10 ^ snd cp == inject_Z c * 10 ^ p0.
Proof.
  intros H. cbv zeta. destruct (Z.eqb_spec c 10) as [->|]; cbn [fst snd].
  - rewrite p10_succ. change (inject_Z (Z.of_N 1)) with 1. change (inject_Z 10) with 10. ring.
  - rewrite Z2N.id by lia. reflexivity.
Qed.
Lemma search k j : (1 <= j)%Z -> (Z.of_nat k + j = 18)%Z ->
  (forall q', rounds_to q' x -> ~ has_digits (j - 1) q') ->
  let '(c, p) := shortest_from up k j t n d m e in found (Z.of_N c) p.
Proof.
  revert j. induction k as [|k IH]; intros j Hj Hk N.
  - exfalso. assert (j = 18%Z) by lia. subst j. apply (N _ seventeen). apply (first_best 17); [lia|exact seventeen].
  - cbn [shortest_from]. cbv zeta. fold (below j). fold (first j). fold (second j).
    pose proof (lo_range j Hj) as LR. assert (L0 : (0 < 10 ^ (j - 1))%Z) by (apply Z.pow_pos_nonneg; lia).
    pose proof (lo_pos j Hj) as L1. pose proof (first_range j) as FR. pose proof (second_range j) as SR.
    assert (F0 : (0 < first j <= 10 ^ j)%Z) by lia. assert (S0 : (0 < second j <= 10 ^ j)%Z) by lia.
    pose proof (norm_value (first j) (t - j) ltac:(lia)) as V1. pose proof (norm_value (second j) (t - j) ltac:(lia)) as V2. cbv zeta in V1, V2.
    pose proof (no_power j (first j) Hj F0 N) as W1. pose proof (no_power j (second j) Hj S0 N) as W2. cbv zeta in W1, W2.
    set (cp1 := if (first j =? 10)%Z then _ else _) in *. set (cp2 := if (second j =? 10)%Z then _ else _) in *. clearbody cp1 cp2.
    destruct cp1 as [c1 p1], cp2 as [c2 p2]. cbn [fst snd] in *.
    assert (wd : forall q q', q == q' -> rounds_to q x -> rounds_to q' x) by (intros q q' Eq; now apply rounds_compat).
    destruct (sf_eqb (round_dec false c1 p1) _) eqn:E1.
    { apply ok_spec in E1. apply (wd _ _ V1) in E1. apply (best_found j (inject_Z (first j) * 10 ^ (t - j))); auto. apply first_best; [exact Hj|exact E1]. }
    assert (N1 : ~ rounds_to (inject_Z (first j) * 10 ^ (t - j)) x).
    { intros F. apply (wd _ _ (Qeq_sym _ _ V1)) in F. apply ok_spec in F. congruence. }
    destruct (sf_eqb (round_dec false c2 p2) _) eqn:E2.
    { apply ok_spec in E2. apply (wd _ _ V2) in E2. apply (best_found j (inject_Z (second j) * 10 ^ (t - j))); auto. apply second_best; [exact Hj|exact N1|exact E2]. }
    assert (N2 : ~ rounds_to (inject_Z (second j) * 10 ^ (t - j)) x).
    { intros F. apply (wd _ _ (Qeq_sym _ _ V2)) in F. apply ok_spec in F. congruence. }
    apply IH; [lia|lia|]. replace (j + 1 - 1)%Z with j by lia. apply neither; auto.
Qed.
Lemma shortest_found : let '(c, p) := shortest_by up m e in found (Z.of_N c) p.
Proof.
  unfold shortest_by. pose proof (search 17 1 ltac:(lia) ltac:(lia)) as H. unfold t, n, d in H. destruct (f64_frac m e) as [n0 d0]. cbn [fst snd] in H.
  apply H. intros q' _ F. apply has_digits_pos in F. lia.
Qed.
Lemma found_shortest c p : (forall z, up z = true) -> found c p -> shortest_decimal x (inject_Z c * 10 ^ p).
Proof.
  intros All (R & J & Hc & H). split; [exact R|].
  assert (P : 0 < inject_Z c * 10 ^ p) by (pose proof (inject_pos c ltac:(lia)); pose proof (p10_pos p); nra).
  assert (D : has_digits J (inject_Z c * 10 ^ p)) by (exists c, p; split; [exact Hc|]; rewrite Qabs_pos by lra; reflexivity).
  intros j q' H1 H2. destruct (H j q' H1 H2) as [A B]. split; [now apply (has_digits_mono J)|].
  intros N r0 Er. rewrite x_value in Er. injection Er as <-. assert (G : good (inject_Z c * 10 ^ p) q'); [|unfold good, as_good in *; tauto]. apply B. destruct (Z.eq_dec j J); auto. exfalso. apply N. apply (has_digits_mono J); auto. lia.
Qed.
Lemma found_nearest c p : found c p -> shortest_nearest x (inject_Z c * 10 ^ p).
Proof.
  intros (R & J & Hc & H). split; [exact R|].
  assert (P : 0 < inject_Z c * 10 ^ p) by (pose proof (inject_pos c ltac:(lia)); pose proof (p10_pos p); nra).
  assert (D : has_digits J (inject_Z c * 10 ^ p)) by (exists c, p; split; [exact Hc|]; rewrite Qabs_pos by lra; reflexivity).
  intros j q' H1 H2. destruct (H j q' H1 H2) as [A B]. split; [now apply (has_digits_mono J)|].
  intros N r0 Er. rewrite x_value in Er. injection Er as <-. assert (G : good (inject_Z c * 10 ^ p) q'); [|destruct G as [G|[G _]]; lra].
  apply B. destruct (Z.eq_dec j J); auto. exfalso. apply N. apply (has_digits_mono J); auto. lia.
Qed.
Lemma found_last c p : found c p -> (c mod 10 <> 0)%Z.
Proof.
  intros (R & J & Hc & H) F. assert (E : c = (10 * (c / 10))%Z) by (pose proof (Z.div_mod c 10 ltac:(lia)); lia). set (c' := (c / 10)%Z) in *. clearbody c'. subst c.
  assert (E : inject_Z (10 * c') * 10 ^ p == inject_Z c' * 10 ^ (p + 1)) by (rewrite p10_succ, inject_Z_mult; change (inject_Z 10) with 10; ring).
  assert (P : 0 < inject_Z c' * 10 ^ (p + 1)) by (pose proof (inject_pos c' ltac:(lia)); pose proof (p10_pos (p + 1)); nra).
  assert (J1 : (1 <= J)%Z).
  { destruct (Z.le_gt_cases 1 J); auto. exfalso. destruct (Z.eq_dec J 0) as [->|]; [change (10 ^ 0)%Z with 1%Z in Hc; lia|]. rewrite Z.pow_neg_r in Hc by lia. lia. }
  assert (D : has_digits (J - 1) (inject_Z (10 * c') * 10 ^ p)).
  { exists c', (p + 1)%Z. split; [|rewrite E, Qabs_pos by lra; reflexivity]. replace J with (J - 1 + 1)%Z in Hc by lia. rewrite Z.pow_add_r in Hc by lia. change (10 ^ 1)%Z with 10%Z in Hc. lia. }
  destruct (H _ _ R D) as [A _]. lia.
Qed.
(** There is no other. *)
Lemma shortest_unique c p q : (forall z, up z = true) -> found c p -> shortest_decimal x q -> q == inject_Z c * 10 ^ p.
Proof.
  intros All F (R & H). assert (F' := F). destruct F' as (R0 & J & Hc & H0). pose proof (rounds_pos _ R) as P. pose proof (rounds_pos _ R0) as P0.
  assert (D0 : has_digits J (inject_Z c * 10 ^ p)) by (exists c, p; split; [exact Hc|]; rewrite Qabs_pos by lra; reflexivity).
  destruct (H J _ R0 D0) as [D K]. destruct (H0 J q R D) as [_ K0]. specialize (K0 eq_refl).
  assert (N : ~ has_digits (J - 1) q) by (intros G; destruct (H0 _ _ R G); lia).
  specialize (K N r x_value). unfold as_good, good in *. rewrite (Qabs_pos q), (Qabs_pos (inject_Z c * 10 ^ p)) in * by lra. 
  destruct K as [K|[K K1]], K0 as [K0|[K0 K2]]; [lra..|]. specialize (K2 All). lra.
Qed.
End Short.

(** * Either sign *)

Lemma has_digits_opp j q : has_digits j q -> has_digits j (- q).
Proof. intros (c & p & Hc & E). exists c, p. split; [exact Hc|]. rewrite Qabs_opp. exact E. Qed.
Lemma has_digits_opp' j q : has_digits j (- q) -> has_digits j q.
Proof. intros H. apply has_digits_opp in H. eapply has_digits_wd; [|exact H]. ring. Qed.
Lemma shortest_opp x q : shortest_decimal x q -> shortest_decimal (fopp x) (- q).
Proof.
  intros (R & H). split; [now apply rounds_opp|]. intros j q' R' D'. apply rounds_opp in R'. rewrite fopp_fopp in R'. apply has_digits_opp in D'.
  destruct (H j _ R' D') as [A B]. split; [now apply has_digits_opp|]. intros N r Hr. apply fvalue_opp in Hr as (r1 & Hr & Er). rewrite fopp_fopp in Hr.
  assert (G : as_good r1 q (- q')) by (apply B; [intros F; apply N, has_digits_opp, F|exact Hr]).
  unfold as_good in *. rewrite !Qabs_opp in *.
  assert (X1 : Qabs (- q - r) == Qabs (q - r1)) by (rewrite Er; apply Qabs_flip).
  assert (X2 : Qabs (q' - r) == Qabs (- q' - r1)) by (rewrite Er, Qabs_flip; apply Qabs_wd; ring).
  rewrite X1, X2. exact G.
Qed.
Lemma shortest_wd x q q' : q == q' -> shortest_decimal x q -> shortest_decimal x q'.
Proof.
  intros E (R & H). split; [now apply (rounds_compat q)|]. intros j q1 R1 D1. destruct (H j q1 R1 D1) as [A B]. split; [now apply (has_digits_wd _ q)|].
  intros N r Hr. assert (G : as_good r q q1) by (apply B; [intros F; apply N; now apply (has_digits_wd _ q)|exact Hr]).
  unfold as_good in *. rewrite <- E. exact G.
Qed.

Lemma shortest_nearest_opp x q : shortest_nearest x q -> shortest_nearest (fopp x) (- q).
Proof.
  intros (R & H). split; [now apply rounds_opp|]. intros j q' R' D'. apply rounds_opp in R'. rewrite fopp_fopp in R'. apply has_digits_opp in D'.
  destruct (H j _ R' D') as [A B]. split; [now apply has_digits_opp|]. intros N r Hr. apply fvalue_opp in Hr as (r1 & Hr & Er). rewrite fopp_fopp in Hr.
  assert (G : Qabs (q - r1) <= Qabs (- q' - r1)) by (apply B; [intros F; apply N, has_digits_opp, F|exact Hr]).
  assert (X1 : Qabs (- q - r) == Qabs (q - r1)) by (rewrite Er; apply Qabs_flip).
  assert (X2 : Qabs (q' - r) == Qabs (- q' - r1)) by (rewrite Er, Qabs_flip; apply Qabs_wd; ring).
  rewrite X1, X2. exact G.
Qed.
Lemma shortest_nearest_wd x q q' : q == q' -> shortest_nearest x q -> shortest_nearest x q'.
Proof.
  intros E (R & H). split; [now apply (rounds_compat q)|]. intros j q1 R1 D1. destruct (H j q1 R1 D1) as [A B]. split; [now apply (has_digits_wd _ q)|].
  intros N r Hr. rewrite <- E. apply B; [intros F; apply N; now apply (has_digits_wd _ q)|exact Hr].
Qed.

(** * The text *)

Lemma value_app a b : digits_value (a ++ b) = (digits_value a * 10 ^ N.of_nat (length b) + digits_value b)%N.
Proof. apply dec_val_app. Qed.
Lemma no_lead n : forall r, dec_of_N n = cZERO :: r -> r = [].
Proof.
  intros r Hr. destruct (dec_of_N_spec n) as (_ & _ & x & q & E & H0 & H1). destruct (N.eq_dec n 0) as [Hz|Hz].
  - rewrite H0 in Hr by auto. now injection Hr as <-.
  - rewrite Hr in E. injection E as <- <-. exfalso. now apply H1.
Qed.
Lemma format_fixed_plain c p : (c mod 10 <> 0)%N ->
  exists ip fp ds, format_fixed c p = ip ++ fp /\ digits ip /\ (forall r, ip = cZERO :: r -> r = []) /\ fraction_digits fp ds /\
    (forall r, ds <> r ++ [cZERO]) /\
    inject_Z (Z.of_N (digits_value (ip ++ ds))) * 10 ^ (- Z.of_nat (length ds)) == inject_Z (Z.of_N c) * 10 ^ p.
Proof.
  intros Hc. unfold format_fixed. destruct (Z.ltb_spec p 0) as [Hp|Hp].
  - set (k := Z.to_N (- p)). assert (Hk : k <> 0%N) by (unfold k; lia).
    set (ds := pad_left (N.to_nat k) (dec_of_N (c mod 10 ^ k)%N)).
    assert (Hl : length ds = N.to_nat k).
    { apply pad_left_length. apply dec_of_N_length; [lia|]. rewrite N2Nat.id. apply N.mod_lt. apply N.pow_nonzero. lia. }
    assert (Hv : digits_value (dec_of_N (c / 10 ^ k)%N ++ ds) = c).
    { rewrite value_app. change digits_value with dec_val. rewrite dec_of_N_val, Hl, N2Nat.id. unfold ds, pad_left. rewrite dec_val_zeros, dec_of_N_val.
      pose proof (N.div_mod c (10 ^ k)). lia. }
    exists (dec_of_N (c / 10 ^ k)%N), (cDOT :: ds), ds. split; [reflexivity|].
    split; [apply digits_all; split; [apply dec_of_N_nonempty|apply dec_of_N_digits]|]. split; [apply no_lead|].
    split. { right. split; [reflexivity|]. apply digits_all. split; [intros E; rewrite E in Hl; cbn in Hl; lia|apply pad_left_digits, dec_of_N_digits]. }
    split.
    + intros r E. apply Hc. rewrite <- Hv, E, app_assoc, value_app. cbn [length]. change (digits_value [cZERO]) with 0%N. change (10 ^ N.of_nat 1)%N with 10%N.
      rewrite N.add_0_r. apply N.mod_mul. lia.
    + rewrite Hv, Hl. replace (- Z.of_nat (N.to_nat k))%Z with p by (unfold k; lia). reflexivity.
  - exists (dec_of_N (c * 10 ^ Z.to_N p)%N), [], []. rewrite !app_nil_r. split; [reflexivity|].
    split; [apply digits_all; split; [apply dec_of_N_nonempty|apply dec_of_N_digits]|]. split; [apply no_lead|].
    split; [now left|]. split; [intros [|? ?]; discriminate|]. change digits_value with dec_val. rewrite dec_of_N_val.
    rewrite N2Z.inj_mul, N2Z.inj_pow, Z2N.id, inject_Z_mult by lia. change (Z.of_N 10) with 10%Z. rewrite <- p10_Z by lia. cbn [length]. change (10 ^ (- Z.of_nat 0)) with 1. ring.
Qed.

Lemma value_bound ds : all_digits ds -> (digits_value ds < 10 ^ N.of_nat (length ds))%N.
Proof. apply dec_val_bound. Qed.
Lemma same_length_value a b : all_digits a -> all_digits b -> length a = length b -> digits_value a = digits_value b -> a = b.
Proof.
  revert b. induction a as [|x a IH]; intros [|y b] Ha Hb L E; try discriminate; auto. injection L as L.
  inversion Ha as [|? ? A1 A2]; subst. inversion Hb as [|? ? B1 B2]; subst. change digits_value with dec_val in *.
  rewrite !dec_val_cons, L in E. pose proof (dec_val_bound a A2) as Ba. pose proof (dec_val_bound b B2) as Bb. rewrite L in Ba.
  cbv beta in A1, B1. assert (x = y) by (unfold is_digit in *; nia). subst y. f_equal. apply IH; auto. change digits_value with dec_val. lia.
Qed.
Lemma decimal_text ip : all_digits ip -> ip <> [] -> (forall r, ip = cZERO :: r -> r = []) -> ip = dec_of_N (digits_value ip).
Proof.
  intros H Hn Hz. destruct ip as [|c r]; [congruence|].
  destruct (dec_of_N_spec (digits_value (c :: r))) as (D1 & D2 & d & q & E & H0 & H1).
  destruct (N.eq_dec c cZERO) as [->|Hc]; [rewrite (Hz r eq_refl); reflexivity|].
  change digits_value with dec_val in *. pose proof (dec_val_lower c r H Hc) as Lo. pose proof (dec_val_bound _ H) as Up. cbn [length] in Up.
  assert (Hd : dec_val (c :: r) <> 0%N) by (pose proof (N.pow_nonzero 10 (N.of_nat (length r)) ltac:(lia)); lia).
  specialize (H1 Hd). rewrite E in *. pose proof (dec_val_lower d q D1 H1) as Lo'. pose proof (dec_val_bound _ D1) as Up'. cbn [length] in Up'. rewrite D2 in *.
  apply same_length_value; auto. cbn [length]. f_equal.
  destruct (Nat.lt_trichotomy (length r) (length q)) as [L|[L|L]]; auto; exfalso.
  - assert (10 ^ N.of_nat (S (length r)) <= 10 ^ N.of_nat (length q))%N by (apply N.pow_le_mono_r; lia). lia.
  - assert (10 ^ N.of_nat (S (length q)) <= 10 ^ N.of_nat (length r))%N by (apply N.pow_le_mono_r; lia). lia.
Qed.

Lemma last_digit ip ds l : all_digits ds -> (0 < l)%N -> (digits_value (ip ++ ds) mod 10 = 0)%N -> ds <> [] -> exists r, ds = r ++ [cZERO].
Proof.
  intros Hd Hl Hm Hn. destruct (exists_last Hn) as (r & c & ->). exists r. apply Forall_app in Hd as [_ Hd]. inversion Hd as [|? ? Hc _]; subst. cbv beta in Hc.
  rewrite app_assoc, value_app in Hm. cbn [length] in Hm. change (10 ^ N.of_nat 1)%N with 10%N in Hm.
  assert (E : digits_value [c] = (c - 48)%N) by reflexivity. rewrite E, N.add_comm, N.mod_add in Hm by lia.
  rewrite N.mod_small in Hm by (unfold is_digit in Hc; lia). unfold is_digit in Hc. do 2 f_equal. lia.
Qed.
Lemma plain_values ip ds ip' ds' : all_digits ip -> all_digits ds -> all_digits ip' -> all_digits ds' ->
  (forall r, ds <> r ++ [cZERO]) -> (forall r, ds' <> r ++ [cZERO]) ->
  inject_Z (Z.of_N (digits_value (ip ++ ds))) * 10 ^ (- Z.of_nat (length ds)) == inject_Z (Z.of_N (digits_value (ip' ++ ds'))) * 10 ^ (- Z.of_nat (length ds')) ->
  length ds = length ds' /\ digits_value (ip ++ ds) = digits_value (ip' ++ ds').
Proof.
  assert (G : forall ip ds ip' ds', all_digits ds' -> (forall r, ds' <> r ++ [cZERO]) -> (length ds <= length ds')%nat ->
    inject_Z (Z.of_N (digits_value (ip ++ ds))) * 10 ^ (- Z.of_nat (length ds)) == inject_Z (Z.of_N (digits_value (ip' ++ ds'))) * 10 ^ (- Z.of_nat (length ds')) ->
    length ds = length ds' /\ digits_value (ip ++ ds) = digits_value (ip' ++ ds')).
  { clear. intros ip ds ip' ds' Hd Hz L E. set (a := digits_value (ip ++ ds)) in *. set (k := (Z.of_nat (length ds') - Z.of_nat (length ds))%Z).
    assert (F : (Z.of_N a * 10 ^ k)%Z = Z.of_N (digits_value (ip' ++ ds'))).
    { apply (proj1 (inject_Z_injective _ _)). apply (Qmult_inj_r _ _ (10 ^ (- Z.of_nat (length ds')))); [apply pos_ne, p10_pos|].
      rewrite <- E, inject_Z_mult, <- p10_Z by (unfold k; lia). rewrite <- Qmult_assoc, <- p10_plus.
      now replace (k + - Z.of_nat (length ds'))%Z with (- Z.of_nat (length ds))%Z by (unfold k; lia). }
    destruct (Nat.eq_dec (length ds) (length ds')) as [El|Nl].
    - split; [exact El|]. unfold k in F. rewrite El, Z.sub_diag, Z.pow_0_r in F. lia.
    - exfalso. destruct (last_digit ip' ds' 1 Hd) as (r & Er); [lia| |intros ->; cbn in L; cbn in Nl; lia|exact (Hz r Er)].
      apply N2Z.inj. rewrite N2Z.inj_mod, <- F. replace k with (k - 1 + 1)%Z by lia. rewrite Z.pow_add_r by (unfold k; lia). change (10 ^ 1)%Z with 10%Z.
      rewrite Z.mul_assoc. apply Z.mod_mul. discriminate. }
  intros _ Hd _ Hd' Hz Hz' E. destruct (Nat.le_ge_cases (length ds) (length ds')) as [L|L]; [now apply G|].
  destruct (G ip' ds' ip ds Hd Hz L) as [A B]; [now symmetry|]. auto.
Qed.
Lemma plain_unique s s' neg q q' : q == q' -> plain_decimal s neg q -> plain_decimal s' neg q' -> s = s'.
Proof.
  intros E (ip & fp & ds & -> & Hi & Hz & Hf & Ht & Eq) (ip' & fp' & ds' & -> & Hi' & Hz' & Hf' & Ht' & Eq').
  rewrite Eq, Eq' in E. apply digits_all in Hi as [Hn Hi], Hi' as [Hn' Hi'].
  assert (Hd : all_digits ds) by (destruct Hf as [[-> ->]|[_ Hf]]; [constructor|now apply digits_all in Hf]).
  assert (Hd' : all_digits ds') by (destruct Hf' as [[-> ->]|[_ Hf']]; [constructor|now apply digits_all in Hf']).
  destruct (plain_values ip ds ip' ds') as [L Ev]; auto.
  { set (a := inject_Z _ * _) in *. set (b := inject_Z _ * _) in *. destruct neg; lra. }
  rewrite !value_app, L in Ev. pose proof (value_bound ds Hd) as B. pose proof (value_bound ds' Hd') as B'. rewrite L in B.
  set (w := (10 ^ N.of_nat (length ds'))%N) in *.
  assert (Ei : digits_value ip = digits_value ip') by nia. assert (Ed : digits_value ds = digits_value ds') by nia.
  assert (ip = ip') by (rewrite (decimal_text ip), (decimal_text ip'), Ei; auto). assert (ds = ds') by (apply same_length_value; auto). subst ip' ds'.
  assert (fp = fp').
  { destruct Hf as [[-> ->]|[-> [Hne _]]], Hf' as [[-> Hnil]|[-> [Hne' _]]]; auto; congruence. }
  now subst.
Qed.

Definition abs64 (s : bool) (m : positive) (e : Z) (V : valid_binary prec64 emax64 (S754_finite s m e) = true) : f64 :=
  F64 (S754_finite false m e) V.
Lemma printed_value (s : bool) m e (V : valid_binary prec64 emax64 (S754_finite s m e) = true) :
  let x := F64 (S754_finite s m e) V in
  let '(c, p) := shortest m e in
  shortest_decimal x ((if s then -1 else 1) * (inject_Z (Z.of_N c) * 10 ^ p)) /\ (c mod 10 <> 0)%N /\
  forall q, shortest_decimal x q -> q == (if s then -1 else 1) * (inject_Z (Z.of_N c) * 10 ^ p).
Proof.
  cbv zeta. unfold shortest. set (up := fun _ : Z => true). assert (All : forall z, up z = true) by reflexivity. clearbody up.
  pose proof (shortest_found up m e V) as F. destruct (shortest_by up m e) as [c p].
  pose proof (found_shortest up m e V _ _ All F) as S. pose proof (found_last up m e V _ _ F) as L. pose proof (fun q => shortest_unique up m e V _ _ q All F) as U.
  assert (L' : (c mod 10 <> 0)%N) by (intros E; apply L; change 10%Z with (Z.of_N 10); rewrite <- N2Z.inj_mod, E; reflexivity).
  destruct s.
  - assert (X : F64 (S754_finite true m e) V = fopp (F64 (S754_finite false m e) V)) by (now apply f64_eq). rewrite X. split.
    + apply (shortest_wd _ (- (inject_Z (Z.of_N c) * 10 ^ p))); [ring|]. now apply shortest_opp.
    + split; [exact L'|]. intros q Hq. apply shortest_opp in Hq. rewrite fopp_fopp in Hq. apply U in Hq. rewrite <- Hq. ring.
  - split; [apply (shortest_wd _ (inject_Z (Z.of_N c) * 10 ^ p)); [ring|exact S]|]. split; [exact L'|]. intros q Hq. rewrite (U q Hq). ring.
Qed.

(** Without saying which way half way goes. *)
Lemma nearest_value_by up (s : bool) m e (V : valid_binary prec64 emax64 (S754_finite s m e) = true) :
  let x := F64 (S754_finite s m e) V in
  let '(c, p) := shortest_by up m e in
  shortest_nearest x ((if s then -1 else 1) * (inject_Z (Z.of_N c) * 10 ^ p)) /\ (c mod 10 <> 0)%N.
Proof.
  cbv zeta. pose proof (shortest_found up m e V) as F. destruct (shortest_by up m e) as [c p].
  pose proof (found_nearest up m e V _ _ F) as S. pose proof (found_last up m e V _ _ F) as L.
  split; [|intros E; apply L; change 10%Z with (Z.of_N 10); rewrite <- N2Z.inj_mod, E; reflexivity].
  destruct s.
  - assert (X : F64 (S754_finite true m e) V = fopp (F64 (S754_finite false m e) V)) by (now apply f64_eq). rewrite X.
    apply (shortest_nearest_wd _ (- (inject_Z (Z.of_N c) * 10 ^ p))); [ring|]. now apply shortest_nearest_opp.
  - apply (shortest_nearest_wd _ (inject_Z (Z.of_N c) * 10 ^ p)); [ring|exact S].
Qed.

(** The one text that prints a number. *)
Lemma prints_spec x t : f64_is_finite x = true -> f64_is_zero x = false -> (prints x t <-> t = f64_to_string x).
Proof.
  intros Hf Hz. unfold f64_to_string. destruct x as [sf V]. cbn [f64_sf]. unfold f64_is_finite, f64_is_zero in *. cbn [f64_sf] in *.
  destruct sf as [s|s| |s m e]; try discriminate.
  pose proof (printed_value s m e V) as P. cbv zeta in P. destruct (shortest m e) as [c p]. destruct P as (P1 & P2 & P3).
  destruct (format_fixed_plain c p P2) as (ip & fp & ds & E & Hi & Hl & Hfr & Ht & Ev).
  assert (W : plain_decimal ((if s then [cMINUS] else []) ++ format_fixed c p) s ((if s then -1 else 1) * (inject_Z (Z.of_N c) * 10 ^ p))).
  { exists ip, fp, ds. rewrite E. split; [reflexivity|]. split; [exact Hi|]. split; [exact Hl|]. split; [exact Hfr|]. split; [exact Ht|]. now rewrite Ev. }
  split.
  - intros (neg & q & Hp & Hs & Hq). unfold signed in Hs. cbn [f64_sf] in Hs. subst neg. exact (plain_unique _ _ _ _ _ (P3 q Hq) Hp W).
  - intros ->. exists s, ((if s then -1 else 1) * (inject_Z (Z.of_N c) * 10 ^ p)). split; [exact W|]. split; [reflexivity|exact P1].
Qed.
