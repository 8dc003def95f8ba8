(** Reading decimals rounds to the nearest double, ties to even. *)
From Coq Require Import SpecFloat QArith Qabs Qpower Lqa.
From Verif Require Import Chars Floats NumProof JsonNumProof Spec SpecText TextProof SpecNum.

Local Open Scope Q_scope.

(** * Powers of 2 *)

Lemma p2_pos e : 0 < 2 ^ e.
Proof. apply Qpower_0_lt. reflexivity. Qed.
Lemma p2_plus a b : 2 ^ (a + b) == 2 ^ a * 2 ^ b.
Proof. apply Qpower_plus. discriminate. Qed.
Lemma p2_Z k : (0 <= k)%Z -> 2 ^ k == inject_Z (2 ^ k).
Proof. intros H. now rewrite Zpower_Qpower by exact H. Qed.
Lemma p2_le a b : (a <= b)%Z -> 2 ^ a <= 2 ^ b.
Proof. intros H. apply Qpower_le_compat_l; [exact H|discriminate]. Qed.
Lemma p2_succ a : 2 ^ (a + 1) == 2 * 2 ^ a.
Proof. rewrite p2_plus. change (2 ^ 1) with 2. ring. Qed.
Lemma inject_pos z : (0 < z)%Z -> 0 < inject_Z z.
Proof. intros H. unfold Qlt; cbn. lia. Qed.
Lemma pos_ne q : 0 < q -> ~ q == 0.
Proof. intros H E. rewrite E in H. now apply (Qlt_irrefl 0). Qed.
Lemma inject_le a b : (a <= b)%Z <-> inject_Z a <= inject_Z b.
Proof. unfold Qle; cbn. lia. Qed.
Lemma inject_lt a b : (a < b)%Z <-> inject_Z a < inject_Z b.
Proof. unfold Qlt; cbn. lia. Qed.
Lemma pow2_ratio e : inject_Z (pow2 e) == inject_Z (pow2 (- e)) * 2 ^ e.
Proof.
  unfold pow2. destruct (Z.ltb_spec e 0) as [H|H].
  - destruct (Z.ltb_spec (- e) 0); [lia|]. rewrite <- p2_Z, <- p2_plus by lia. now rewrite Z.add_opp_diag_l.
  - destruct (Z.ltb_spec (- e) 0).
    + rewrite p2_Z by lia. ring.
    + assert (e = 0)%Z by lia. subst. reflexivity.
Qed.

(** * The integer nearest to a fraction *)

Lemma half_even_near N D k : (0 <= N)%Z -> (0 < D)%Z ->
  let m := div_half_even N D in
  (Z.abs (N - m * D) <= Z.abs (N - k * D))%Z /\
  (Z.abs (N - m * D) = Z.abs (N - k * D) -> k = m \/ (Z.even m = true /\ Z.even k = false))%Z.
Proof.
  intros HN HD. cbv zeta. unfold div_half_even. pose proof (Z.div_mod N D ltac:(lia)) as E. pose proof (Z.mod_pos_bound N D HD) as B.
  set (q := (N / D)%Z) in *. set (r := (N mod D)%Z) in *. clearbody q r.
  assert (K : (N - k * D = (q - k) * D + r)%Z) by (rewrite E; ring). rewrite K.
  assert (C : (k <= q - 1 \/ k = q \/ k = q + 1 \/ q + 2 <= k)%Z) by lia.
  destruct (Z.ltb_spec (2 * r) D) as [H1|H1].
  - replace (N - q * D)%Z with r by (rewrite E; ring).
    destruct C as [C|[C|[C|C]]]; [nia|subst; split; [lia|now left]|subst; split; [nia|nia]|nia].
  - destruct (Z.ltb_spec D (2 * r)) as [H2|H2].
    + replace (N - (q + 1) * D)%Z with (r - D)%Z by (rewrite E; ring).
      destruct C as [C|[C|[C|C]]]; [nia|subst; split; nia|subst; split; [nia|now left]|nia].
    + assert (H3 : (2 * r = D)%Z) by lia. destruct (Z.even q) eqn:Ev.
      * replace (N - q * D)%Z with r by (rewrite E; ring).
        destruct C as [C|[C|[C|C]]]; [nia|subst; split; [lia|now left]| |nia].
        subst k. split; [nia|]. intros _. right. split; [exact Ev|]. rewrite Z.add_1_r, Z.even_succ, <- Z.negb_even, Ev. reflexivity.
      * replace (N - (q + 1) * D)%Z with (r - D)%Z by (rewrite E; ring).
        destruct C as [C|[C|[C|C]]]; [nia| |subst; split; [nia|now left]|nia].
        subst k. split; [nia|]. intros _. right. split; [|exact Ev]. rewrite Z.add_1_r, Z.even_succ, <- Z.negb_even, Ev. reflexivity.
Qed.

Lemma half_even_bounds N D A B : (0 < D)%Z -> (A * D <= N)%Z -> (N <= B * D)%Z -> (A <= div_half_even N D <= B)%Z.
Proof.
  intros HD HA HB. unfold div_half_even. pose proof (Z.div_mod N D ltac:(lia)) as E. pose proof (Z.mod_pos_bound N D HD) as R.
  set (q := (N / D)%Z) in *. set (r := (N mod D)%Z) in *. clearbody q r.
  assert (A <= q)%Z by nia. assert (q <= B)%Z by nia. assert (r > 0 -> q + 1 <= B)%Z by nia.
  destruct (Z.ltb_spec (2 * r) D); [lia|]. destruct (Z.ltb_spec D (2 * r)); [lia|]. destruct (Z.even q); lia.
Qed.

(** * The scale *)

Section Scale.
Variables n d : Z.
Hypothesis Hn : (0 < n)%Z.
Hypothesis Hd : (0 < d)%Z.
Definition ratio : Q := inject_Z n / inject_Z d.

Lemma ratio_log : 2 ^ flog2_q n d <= ratio /\ ratio < 2 ^ (flog2_q n d + 1).
Proof.
  pose proof (Z.log2_nonneg n) as L1. pose proof (Z.log2_nonneg d) as L2.
  set (K := (Z.log2 n + Z.log2 d + 2)%Z).
  destruct (flog2_q_spec n d K Hn Hd) as [A B]; try (unfold K; lia).
  set (f := flog2_q n d) in *.
  assert (F : (0 <= K + f)%Z). { unfold f, flog2_q. destruct (_ <=? _)%Z; unfold K; lia. }
  apply inject_le in A. apply inject_lt in B. rewrite !inject_Z_mult in A, B.
  rewrite <- (p2_Z (K + f)), <- (p2_Z K) in A by (unfold K; lia).
  rewrite <- (p2_Z (K + f + 1)), <- (p2_Z K) in B by (unfold K in *; lia).
  rewrite <- Z.add_assoc in B. rewrite p2_plus in A, B.
  pose proof (p2_pos K) as P. pose proof (inject_pos d Hd) as P2. unfold ratio. split.
  - apply Qle_shift_div_l; [exact P2|].
    apply (Qmult_lt_0_le_reg_r _ _ (2 ^ K)); [exact P|].
    setoid_replace (2 ^ f * inject_Z d * 2 ^ K) with (inject_Z d * (2 ^ K * 2 ^ f)) by ring. exact A.
  - apply Qlt_shift_div_r; [exact P2|].
    apply (Qmult_lt_r _ _ (2 ^ K)); [exact P|].
    setoid_replace (2 ^ (f + 1) * inject_Z d * 2 ^ K) with (inject_Z d * (2 ^ K * 2 ^ (f + 1))) by ring. exact B.
Qed.

Definition ex : Z := Z.max (-1074) (flog2_q n d - 52).
Definition NN : Z := (n * pow2 (- ex))%Z.
Definition DD : Z := (d * pow2 ex)%Z.
Definition mm : Z := div_half_even NN DD.

Lemma DD_pos : (0 < DD)%Z.
Proof. unfold DD. pose proof (pow2_pos ex). nia. Qed.
Lemma NN_pos : (0 < NN)%Z.
Proof. unfold NN. pose proof (pow2_pos (- ex)). nia. Qed.
Lemma ratio_scaled : ratio == inject_Z NN / inject_Z DD * 2 ^ ex.
Proof.
  unfold ratio, NN, DD. rewrite !inject_Z_mult, (pow2_ratio ex).
  pose proof (p2_pos ex) as P. pose proof (inject_pos d Hd) as P2. pose proof (inject_pos _ (pow2_pos (- ex))) as P3. field.
  repeat split; apply pos_ne; assumption.
Qed.
Definition unit : Q := 2 ^ ex / inject_Z DD.
Lemma unit_pos : 0 < unit.
Proof. unfold unit. apply Qlt_shift_div_l; [apply inject_pos, DD_pos|]. rewrite Qmult_0_l. apply p2_pos. Qed.
Lemma dist k : Qabs (ratio - inject_Z k * 2 ^ ex) == inject_Z (Z.abs (NN - k * DD)) * unit.
Proof.
  assert (E : ratio - inject_Z k * 2 ^ ex == inject_Z (NN - k * DD) * unit).
  { rewrite ratio_scaled. unfold unit. unfold Z.sub. rewrite inject_Z_plus, inject_Z_opp, inject_Z_mult.
    pose proof (inject_pos _ DD_pos) as P. field. apply pos_ne; assumption. }
  rewrite E, Qabs_Qmult, (Qabs_pos unit) by (apply Qlt_le_weak, unit_pos).
  reflexivity.
Qed.

(** The grid of the scale: no multiple is nearer. *)
Lemma near_grid k :
  Qabs (ratio - inject_Z mm * 2 ^ ex) <= Qabs (ratio - inject_Z k * 2 ^ ex) /\
  (Qabs (ratio - inject_Z mm * 2 ^ ex) == Qabs (ratio - inject_Z k * 2 ^ ex) -> k = mm \/ (Z.even mm = true /\ Z.even k = false)).
Proof.
  rewrite !dist. destruct (half_even_near NN DD k) as [A B]; [pose proof NN_pos; lia|exact DD_pos|]. fold mm in A, B.
  pose proof unit_pos as U. split.
  - apply Qmult_le_compat_r; [|now apply Qlt_le_weak]. apply (proj1 (inject_le _ _)). exact A.
  - intros E. apply B. apply Qmult_inj_r in E; [|apply pos_ne; exact U].
    now apply (proj1 (inject_Z_injective _ _)) in E.
Qed.
Lemma mm_bounds : (0 <= mm <= 2 ^ 53)%Z /\ ((-1074 < ex)%Z -> (2 ^ 52 <= mm)%Z).
Proof.
  pose proof ratio_log as [A B]. pose proof DD_pos as D. pose proof NN_pos as N.
  assert (S : inject_Z NN == ratio * inject_Z DD / 2 ^ ex).
  { rewrite ratio_scaled. pose proof (p2_pos ex) as P. pose proof (inject_pos _ D) as P2. field.
    split; apply pos_ne; assumption. }
  assert (U : (NN <= 2 ^ 53 * DD)%Z).
  { apply (proj2 (inject_le _ _)). rewrite S, inject_Z_mult. apply Qle_shift_div_r; [apply p2_pos|].
    setoid_replace (inject_Z (2 ^ 53) * inject_Z DD * 2 ^ ex) with (2 ^ 53 * 2 ^ ex * inject_Z DD) by (rewrite (p2_Z 53) by lia; ring).
    apply Qmult_le_compat_r; [|apply Qlt_le_weak, inject_pos, D].
    rewrite <- p2_plus. eapply Qle_trans; [apply Qlt_le_weak, B|]. apply p2_le. unfold ex. lia. }
  split.
  - apply half_even_bounds; [exact D| |exact U]. lia.
  - intros He. apply (half_even_bounds NN DD (2 ^ 52) (2 ^ 53)); [exact D| |exact U].
    apply (proj2 (inject_le _ _)). rewrite S, inject_Z_mult. apply Qle_shift_div_l; [apply p2_pos|].
    setoid_replace (inject_Z (2 ^ 52) * inject_Z DD * 2 ^ ex) with (2 ^ 52 * 2 ^ ex * inject_Z DD) by (rewrite (p2_Z 52) by lia; ring).
    apply Qmult_le_compat_r; [|apply Qlt_le_weak, inject_pos, D].
    rewrite <- p2_plus. eapply Qle_trans; [|apply A]. apply p2_le. unfold ex in *. lia.
Qed.

(** No number with 53 bits and an exponent in range is nearer. *)
Lemma near_all m' e' : (0 <= m' < 2 ^ 53)%Z -> (-1074 <= e')%Z ->
  Qabs (ratio - inject_Z mm * 2 ^ ex) <= Qabs (ratio - inject_Z m' * 2 ^ e') /\
  (Qabs (ratio - inject_Z mm * 2 ^ ex) == Qabs (ratio - inject_Z m' * 2 ^ e') ->
     inject_Z mm * 2 ^ ex == inject_Z m' * 2 ^ e' \/ (Z.even mm = true /\ Z.even m' = false /\ e' = ex)).
Proof.
  intros Hm He. destruct (Z.le_gt_cases ex e') as [C|C].
  - assert (E : inject_Z m' * 2 ^ e' == inject_Z (m' * 2 ^ (e' - ex)) * 2 ^ ex).
    { rewrite inject_Z_mult, <- p2_Z by lia. rewrite <- Qmult_assoc, <- p2_plus. now replace (e' - ex + ex)%Z with e' by lia. }
    rewrite E. destruct (near_grid (m' * 2 ^ (e' - ex))) as [A B]. split; [exact A|].
    intros F. destruct (B F) as [G|[G1 G2]]; [left; now rewrite G|right].
    destruct (Z.eq_dec e' ex) as [->|Hne].
    + split; [exact G1|]. split; [|reflexivity]. rewrite Z.sub_diag, Z.pow_0_r, Z.mul_1_r in G2. exact G2.
    + exfalso. rewrite Z.even_mul in G2. replace (e' - ex)%Z with (Z.succ (e' - ex - 1)) in G2 by lia.
      rewrite Z.pow_succ_r in G2 by lia. rewrite (Z.even_mul 2) in G2. cbn in G2. rewrite orb_true_r in G2. discriminate.
  - (* below the binade *)
    assert (X : ex = (flog2_q n d - 52)%Z) by (unfold ex in *; lia).
    pose proof ratio_log as [A _]. set (f := flog2_q n d) in *.
    assert (Y : inject_Z m' * 2 ^ e' < 2 ^ f).
    { apply Qlt_le_trans with (2 ^ 53 * 2 ^ e').
      - apply Qmult_lt_r; [apply p2_pos|]. rewrite (p2_Z 53) by lia. apply (proj1 (inject_lt _ _)). lia.
      - rewrite <- p2_plus. apply p2_le. lia. }
    destruct (near_grid (2 ^ 52)) as [G _].
    assert (Z2 : inject_Z (2 ^ 52) * 2 ^ ex == 2 ^ f).
    { rewrite <- (p2_Z 52), <- p2_plus by lia. replace (52 + ex)%Z with f by lia. reflexivity. }
    rewrite Z2 in G. rewrite (Qabs_pos (ratio - 2 ^ f)) in G by lra.
    rewrite (Qabs_pos (ratio - inject_Z m' * 2 ^ e')) by lra.
    split; [lra|]. intros F. exfalso. lra.
Qed.
End Scale.

(** * Rounding a fraction *)

Lemma overflow_alt : overflow == inject_Z (2 ^ 53) * 2 ^ 971 - (1 # 2) * 2 ^ 971.
Proof.
  unfold overflow. replace 1024%Z with (53 + 971)%Z by lia. replace 971%Z with (970 + 1)%Z at 3 by lia.
  rewrite p2_succ, p2_plus, (p2_Z 53) by lia. ring.
Qed.
Lemma p2_1023 : 2 ^ 1023 < overflow.
Proof.
  unfold overflow. replace 1024%Z with (1023 + 1)%Z by lia. rewrite p2_succ.
  assert (2 ^ 970 < 2 ^ 1023) by (apply Qpower_lt_compat_l; [lia|reflexivity]). lra.
Qed.
Lemma overflow_pos : 0 < overflow.
Proof. pose proof p2_1023. pose proof (p2_pos 1023). lra. Qed.

Lemma Qabs_cases q : (0 <= q /\ Qabs q == q) \/ (q < 0 /\ Qabs q == - q).
Proof.
  destruct (Qlt_le_dec q 0); [right|left]; split; auto; [apply Qabs_neg; lra|now apply Qabs_pos].
Qed.
Ltac qabs := repeat match goal with
  | H : context [Qabs ?q] |- _ => destruct (Qabs_cases q) as [[? ?]|[? ?]]; generalize dependent (Qabs q); intros
  | |- context [Qabs ?q] => destruct (Qabs_cases q) as [[? ?]|[? ?]]; generalize dependent (Qabs q); intros
  end.

Lemma finite_valid s p e : (Zpos p < 2 ^ 53)%Z -> (-1074 <= e <= 971)%Z -> ((-1074 < e)%Z -> (2 ^ 52 <= Zpos p)%Z) ->
  valid_binary prec64 emax64 (S754_finite s p e) = true.
Proof.
  intros Hp He Hl. cbn [valid_binary]. unfold bounded, canonical_mantissa, fexp, emin, prec64, emax64.
  assert (L : (Z.log2 (Zpos p) <= 52)%Z).
  { assert (Z.log2 (Zpos p) < 53)%Z by (apply Z.log2_lt_pow2; lia). lia. }
  apply andb_true_intro. split; [|apply Z.leb_le; lia]. apply Zeq_is_eq_bool. rewrite digits2_pos_log2.
  pose proof (Z.log2_nonneg (Zpos p)). destruct (Z.eq_dec e (-1074)) as [->|Hne]; [lia|].
  assert (52 <= Z.log2 (Zpos p))%Z by (apply Z.log2_le_pow2; lia). lia.
Qed.

Lemma round_q_cases s n d : (0 < n)%Z -> (0 < d)%Z ->
  exists m e, (m = mm n d /\ e = ex n d /\ (m < 2 ^ 53)%Z \/ mm n d = (2 ^ 53)%Z /\ m = (2 ^ 52)%Z /\ e = (ex n d + 1)%Z) /\
    round_q s n d = match m with Zpos p => if (971 <? e)%Z then S754_infinity s else S754_finite s p e | _ => S754_zero s end.
Proof.
  intros Hn Hd. unfold round_q. destruct (Z.eqb_spec n 0); [lia|]. fold (ex n d). fold (NN n d). fold (DD n d). fold (mm n d).
  pose proof (mm_bounds n d Hn Hd) as [B _].
  destruct (Z.eqb_spec (mm n d) (2 ^ 53)) as [E|E].
  - exists (2 ^ 52)%Z, (ex n d + 1)%Z. split; [right; auto|reflexivity].
  - exists (mm n d), (ex n d). split; [left; repeat split; lia|reflexivity].
Qed.
Lemma round_q_valid s n d : (0 <= n)%Z -> (0 < d)%Z -> valid_binary prec64 emax64 (round_q s n d) = true.
Proof.
  intros Hn Hd. destruct (Z.eq_dec n 0) as [->|Hz]; [reflexivity|]. assert (Hp : (0 < n)%Z) by lia.
  pose proof (mm_bounds n d Hp Hd) as [B L]. destruct (round_q_cases s n d Hp Hd) as (m & e & C & ->).
  destruct m as [|p|p]; try reflexivity. destruct (Z.ltb_spec 971 e); [reflexivity|].
  assert (-1074 <= ex n d)%Z by (unfold ex; lia).
  apply finite_valid; destruct C as [(E1 & E2 & E3)|(E1 & E2 & E3)]; lia.
Qed.

Lemma fvalue_nonneg_or_neg y r : fvalue y = Some r ->
  (exists m e, (0 <= m < 2 ^ 53)%Z /\ (-1074 <= e)%Z /\ r == inject_Z m * 2 ^ e /\
     (m = 0%Z \/ exists s p, m = Zpos p /\ s = false /\ f64_sf y = S754_finite s p e)) \/ r < 0.
Proof.
  unfold fvalue. destruct y as [sf V]; cbn [f64_sf]. destruct sf as [s| | |s m e]; try discriminate; intros E; injection E as <-.
  - left. exists 0%Z, (-1074)%Z. repeat split; try lia; auto. 
  - destruct (valid_finite _ _ _ V) as (V1 & V2 & V3). destruct s.
    + right. assert (P : 0 < inject_Z (Zpos m)) by (apply inject_pos; lia). pose proof (p2_pos e) as P2.
      change (Zneg m) with (- Zpos m)%Z. rewrite inject_Z_opp. nra.
    + left. exists (Zpos m), e. repeat split; try lia. right. eauto.
Qed.

(** The finite result, if any: its value, and the comparison with all doubles. *)
Lemma round_pos n d : (0 < n)%Z -> (0 < d)%Z -> rounds_to (ratio n d) (mk_f64 (round_q false n d)).
Proof.
  intros Hn Hd. pose proof (round_q_valid false n d ltac:(lia) Hd) as V.
  pose proof (mm_bounds n d Hn Hd) as [B L]. pose proof (ratio_log n d Hn Hd) as [R1 R2].
  assert (R0 : 0 < ratio n d) by (pose proof (p2_pos (flog2_q n d)); lra).
  pose proof (round_q_cases false n d Hn Hd) as (m & e & C & E).
  assert (Ev : inject_Z m * 2 ^ e == inject_Z (mm n d) * 2 ^ ex n d).
  { destruct C as [(-> & -> & _)|(E1 & -> & ->)]; [reflexivity|]. rewrite E1, p2_succ.
    change (2 ^ 53)%Z with (2 ^ 52 * 2)%Z. rewrite inject_Z_mult. change (inject_Z 2) with 2. ring. }
  assert (Hm : (0 <= m)%Z) by lia.
  assert (X : (-1074 <= ex n d)%Z) by (unfold ex; lia).
  set (x := mk_f64 (round_q false n d)). assert (S : f64_sf x = round_q false n d) by now apply mk_f64_sf.
  destruct (Z.le_gt_cases e 971) as [He|He].
  - (* in range *)
    left. split.
    + split; [pose proof overflow_pos; lra|].
      destruct (Z.le_gt_cases (ex n d) 970) as [Hx|Hx].
      * apply Qlt_trans with (2 ^ 1023); [|exact p2_1023]. eapply Qlt_le_trans; [exact R2|]. apply p2_le. unfold ex in *. lia.
      * destruct C as [(E1 & E2 & E3)|(E1 & E2 & E3)]; [|lia].
        assert (X2 : ex n d = 971%Z) by lia. destruct (near_grid n d Hn Hd (2 ^ 53)) as [G1 G2].
        rewrite X2 in *. rewrite overflow_alt.
        assert (G3 : ~ Qabs (ratio n d - inject_Z (mm n d) * 2 ^ 971) == Qabs (ratio n d - inject_Z (2 ^ 53) * 2 ^ 971)).
        { intros F. destruct (G2 F) as [G|[_ G]]; [lia|discriminate]. }
        assert (G4 : inject_Z (mm n d) <= inject_Z (2 ^ 53) - 1).
        { change (inject_Z (2 ^ 53) - 1) with (inject_Z (2 ^ 53) - inject_Z 1). setoid_replace (inject_Z (2 ^ 53) - inject_Z 1) with (inject_Z (2 ^ 53 - 1)) by reflexivity.
          apply (proj1 (inject_le _ _)). lia. }
        pose proof (p2_pos 971) as P. assert (G5 : inject_Z (mm n d) * 2 ^ 971 <= (inject_Z (2 ^ 53) - 1) * 2 ^ 971) by (apply Qmult_le_compat_r; lra).
        generalize dependent (2 ^ 971). intros u. intros. set (a := inject_Z (mm n d) * u) in *. set (b := inject_Z (2 ^ 53) * u) in *.
        assert (a <= b - u) by (unfold b; lra). clearbody a b.
        destruct (Qabs_cases (ratio n d - a)) as [[? Q1]|[? Q1]]; rewrite Q1 in *; destruct (Qabs_cases (ratio n d - b)) as [[? Q2]|[? Q2]]; rewrite Q2 in *; try lra.
    + (* nearest *)
      assert (Fv : exists r0, fvalue x = Some r0 /\ r0 == inject_Z m * 2 ^ e).
      { unfold fvalue. rewrite S, E. destruct m as [|p|p]; [|destruct (Z.ltb_spec 971 e); [lia|]|lia]; eexists; (split; [reflexivity|]).
        - change (inject_Z 0) with 0. ring.
        - reflexivity. }
      destruct Fv as (r0 & Fv & Er). exists r0. split; [exact Fv|].
      { intros y r' Hy.
        assert (Ee : Z.even (mm n d) = true -> even_last x).
        { intros Hev. unfold even_last. rewrite S, E. destruct m as [|p|p]; auto. destruct (971 <? e)%Z; auto.
          destruct C as [(E1 & _)|(_ & E1 & _)]; [now rewrite E1|now rewrite E1]. }
        destruct (fvalue_nonneg_or_neg y r' Hy) as [(m' & e' & M1 & M2 & M3 & _)|Hneg].
        -- destruct (near_all n d Hn Hd m' e' M1 M2) as [A1 A2]. rewrite Er, Ev, M3. split; [exact A1|].
           intros F. destruct (A2 F) as [G|(G & _)]; [left|right]; auto.
        -- destruct (near_all n d Hn Hd 0 (-1074) ltac:(lia) ltac:(lia)) as [A1 A2]. rewrite Er, Ev.
           change (inject_Z 0 * 2 ^ (-1074)) with (0 * 2 ^ (-1074)) in A1. rewrite Qmult_0_l in A1.
           rewrite (Qabs_pos (ratio n d - 0)) in A1 by lra. rewrite (Qabs_pos (ratio n d - r')) by lra.
           split; [lra|]. intros F. exfalso. lra. }
  - (* overflow *)
    right. left. destruct m as [|p|p]; [|split|lia].
    + destruct C as [(E1 & E2 & E3)|(E1 & E2 & E3)]; [|lia]. assert (2 ^ 52 <= mm n d)%Z by (apply L; lia). lia.
    + destruct C as [(E1 & E2 & E3)|(E1 & E2 & E3)].
      * eapply Qle_trans; [|exact R1]. apply Qle_trans with (2 ^ 1024); [unfold overflow; pose proof (p2_pos 970); lra|]. apply p2_le. unfold ex in *. lia.
      * destruct (Z.eq_dec (ex n d) 971) as [X2|X2].
        -- destruct (near_grid n d Hn Hd (2 ^ 53 - 1)) as [G _]. rewrite X2, E1 in G. rewrite overflow_alt.
           unfold Z.sub in G. rewrite inject_Z_plus in G. change (inject_Z (- (1))) with (-1) in G.
           set (b := inject_Z (2 ^ 53)) in *. clearbody b. pose proof (p2_pos 971) as P. generalize dependent (2 ^ 971). intros u. intros.
           set (a := b * u) in *. assert (A : (b + -1) * u == a - u) by (unfold a; ring). rewrite A in G. clearbody a.
           destruct (Qabs_cases (ratio n d - a)) as [[? Q1]|[? Q1]]; rewrite Q1 in *; destruct (Qabs_cases (ratio n d - (a - u))) as [[? Q2]|[? Q2]]; rewrite Q2 in *; lra.
        -- eapply Qle_trans; [|exact R1]. apply Qle_trans with (2 ^ 1024); [unfold overflow; pose proof (p2_pos 970); lra|]. apply p2_le. unfold ex in *. lia.
    + rewrite S, E. destruct (Z.ltb_spec 971 e); [reflexivity|lia].
Qed.

(** * Signs and zero *)

Lemma sf_opp_valid (x : spec_float) : valid_binary prec64 emax64 x = true -> valid_binary prec64 emax64 (sf_opp x) = true.
Proof. now destruct x. Qed.
Definition fopp (x : f64) : f64 := F64 (sf_opp (f64_sf x)) (sf_opp_valid _ (f64_ok x)).
Lemma fopp_fopp x : fopp (fopp x) = x.
Proof. apply f64_eq. cbn. destruct (f64_sf x); cbn; now rewrite ?negb_involutive. Qed.
Lemma fvalue_opp x r : fvalue x = Some r -> exists r', fvalue (fopp x) = Some r' /\ r' == - r.
Proof.
  unfold fvalue. cbn. destruct (f64_sf x) as [s| | |s m e]; cbn; intros E; try discriminate; injection E as <-; eexists; (split; [reflexivity|]).
  - reflexivity.
  - destruct s; cbn [negb].
    + change (Zneg m) with (- Zpos m)%Z. rewrite inject_Z_opp. ring.
    + change (Zneg m) with (- Zpos m)%Z. rewrite inject_Z_opp. ring.
Qed.
Lemma even_opp x : even_last x -> even_last (fopp x).
Proof. unfold even_last. cbn. now destruct (f64_sf x). Qed.
Lemma Qabs_flip a b : Qabs (- a - b) == Qabs (a - - b).
Proof. rewrite <- Qabs_opp. apply Qabs_wd. ring. Qed.
Lemma nearest_opp q x : nearest q x -> nearest (- q) (fopp x).
Proof.
  intros (r & Hr & H). destruct (fvalue_opp x r Hr) as (r1 & H1 & E1). exists r1. split; [exact H1|].
  intros y r' Hy. destruct (fvalue_opp y r' Hy) as (r2 & H2 & E2). destruct (H _ _ H2) as [A B].
  assert (X1 : Qabs (- q - r1) == Qabs (q - r)) by (rewrite E1, Qabs_flip; apply Qabs_wd; ring).
  assert (X2 : Qabs (- q - r') == Qabs (q - r2)) by (rewrite E2; apply Qabs_flip).
  rewrite X1, X2. split; [exact A|]. intros F. destruct (B F) as [G|G]; [left; lra|right; now apply even_opp].
Qed.
Lemma rounds_opp q x : rounds_to q x -> rounds_to (- q) (fopp x).
Proof.
  intros [[A B]|[[A B]|[A B]]].
  - left. split; [lra|now apply nearest_opp].
  - right. right. split; [lra|]. cbn. now rewrite B.
  - right. left. split; [lra|]. cbn. now rewrite B.
Qed.
Lemma nearest_compat q q' x : q == q' -> nearest q x -> nearest q' x.
Proof.
  intros E (r & Hr & H). exists r. split; [exact Hr|]. intros y r' Hy. destruct (H y r' Hy) as [A B].
  assert (X1 : Qabs (q' - r) == Qabs (q - r)) by (apply Qabs_wd; rewrite E; ring).
  assert (X2 : Qabs (q' - r') == Qabs (q - r')) by (apply Qabs_wd; rewrite E; ring).
  rewrite X1, X2. auto.
Qed.
Lemma rounds_compat q q' x : q == q' -> rounds_to q x -> rounds_to q' x.
Proof.
  intros E [[A B]|[[A B]|[A B]]].
  - left. split; [lra|]. eapply nearest_compat; eauto.
  - right. left. split; [lra|exact B].
  - right. right. split; [lra|exact B].
Qed.
Lemma rounds_zero x : f64_is_zero x = true -> rounds_to 0 x.
Proof.
  intros Hz. left. split; [pose proof overflow_pos; lra|]. exists 0. unfold f64_is_zero, fvalue in *. destruct (f64_sf x) eqn:S; try discriminate.
  split; [reflexivity|]. intros y r' _. split; [rewrite (Qabs_pos (0 - 0)) by lra; apply Qabs_nonneg|].
  intros _. right. unfold even_last. now rewrite S.
Qed.

Lemma round_rounds (s : bool) n d : (0 <= n)%Z -> (0 < d)%Z ->
  rounds_to ((if s then -1 else 1) * ratio n d) (mk_f64 (round_q s n d)).
Proof.
  intros Hn Hd.
  assert (P : rounds_to (ratio n d) (mk_f64 (round_q false n d))).
  { destruct (Z.eq_dec n 0) as [->|Hz]; [|apply round_pos; lia].
    apply (rounds_compat 0); [|now apply rounds_zero]. unfold ratio, Qdiv. change (inject_Z 0) with 0. ring. }
  destruct s; [|apply (rounds_compat (ratio n d)); [ring|exact P]].
  apply rounds_opp in P. apply (rounds_compat (- ratio n d)); [ring|].
  replace (mk_f64 (round_q true n d)) with (fopp (mk_f64 (round_q false n d))); [exact P|].
  apply f64_eq. cbn [f64_sf fopp]. rewrite !mk_f64_sf by (apply round_q_valid; lia). now rewrite round_q_sign.
Qed.

Lemma p10_pos e : 0 < 10 ^ e.
Proof. apply Qpower_0_lt. reflexivity. Qed.
Lemma p10_plus a b : 10 ^ (a + b) == 10 ^ a * 10 ^ b.
Proof. apply Qpower_plus. discriminate. Qed.
Lemma p10_Z k : (0 <= k)%Z -> 10 ^ k == inject_Z (10 ^ k).
Proof. intros H. now rewrite Zpower_Qpower by exact H. Qed.
Lemma p10_le a b : (a <= b)%Z -> 10 ^ a <= 10 ^ b.
Proof. intros H. apply Qpower_le_compat_l; [exact H|discriminate]. Qed.
Lemma p10_lt a b : (a < b)%Z -> 10 ^ a < 10 ^ b.
Proof. intros H. apply Qpower_lt_compat_l; [exact H|reflexivity]. Qed.
Lemma p10_opp k : 10 ^ (- k) == / 10 ^ k.
Proof. apply Qpower_opp. Qed.

Lemma round_dec_valid s M E : valid_binary prec64 emax64 (round_dec s M E) = true.
Proof.
  unfold round_dec. destruct (Z.ltb_spec E 0); apply round_q_valid; try lia; try (apply Z.pow_pos_nonneg; lia).
Qed.
Lemma round_dec_rounds (s : bool) M E :
  rounds_to ((if s then -1 else 1) * (inject_Z (Z.of_N M) * 10 ^ E)) (mk_f64 (round_dec s M E)).
Proof.
  unfold round_dec. destruct (Z.ltb_spec E 0) as [H|H].
  - assert (P : (0 < 10 ^ (- E))%Z) by (apply Z.pow_pos_nonneg; lia).
    eapply rounds_compat; [|apply round_rounds; [lia|exact P]].
    unfold ratio, Qdiv. rewrite <- p10_Z by lia. rewrite <- p10_opp, Z.opp_involutive. reflexivity.
  - assert (P : (0 < 10 ^ E)%Z) by (apply Z.pow_pos_nonneg; lia).
    eapply rounds_compat; [|apply round_rounds; [nia|lia]].
    unfold ratio. rewrite inject_Z_mult, <- p10_Z by lia. change (inject_Z 1) with 1. field.
Qed.
(** The sign of the result is the sign that was written, also on zero. *)
Definition sf_sign (x : spec_float) : bool :=
  match x with S754_zero s | S754_infinity s | S754_finite s _ _ => s | S754_nan => false end.
Lemma round_q_sf_sign s n d : sf_sign (round_q s n d) = s.
Proof.
  unfold round_q. destruct (n =? 0)%Z; [reflexivity|]. destruct (if (_ =? _)%Z then _ else _) as [m e]. destruct m; try reflexivity. now destruct (971 <? e)%Z.
Qed.
Lemma round_dec_sf_sign s M E : sf_sign (round_dec s M E) = s.
Proof. unfold round_dec. destruct (E <? 0)%Z; apply round_q_sf_sign. Qed.

(** * Only one double *)

Lemma finite_inj m e m' e' s s' :
  valid_binary prec64 emax64 (S754_finite s m e) = true -> valid_binary prec64 emax64 (S754_finite s' m' e') = true ->
  inject_Z (Zpos m) * 2 ^ e == inject_Z (Zpos m') * 2 ^ e' -> m = m' /\ e = e'.
Proof.
  intros V V'. destruct (valid_finite _ _ _ V) as (A1 & A2 & A3). destruct (valid_finite _ _ _ V') as (B1 & B2 & B3).
  assert (LL : forall p : positive, (52 <= Z.log2 (Zpos p))%Z -> (2 ^ 52 <= Zpos p)%Z) by (intros p; apply Z.log2_le_pow2; lia).
  assert (A4 : (-1074 < e)%Z -> (2 ^ 52 <= Zpos m)%Z) by (intros; apply LL; lia).
  assert (B4 : (-1074 < e')%Z -> (2 ^ 52 <= Zpos m')%Z) by (intros; apply LL; lia).
  assert (G : forall m e m' e', (Zpos m < 2 ^ 53)%Z -> (-1074 <= e)%Z -> (e <= e')%Z ->
     ((-1074 < e')%Z -> (2 ^ 52 <= Zpos m')%Z) -> inject_Z (Zpos m) * 2 ^ e == inject_Z (Zpos m') * 2 ^ e' -> m = m' /\ e = e').
  { clear. intros m e m' e' L X C M E.
    assert (F : Zpos m = (Zpos m' * 2 ^ (e' - e))%Z).
    { apply (proj1 (inject_Z_injective _ _)). apply (Qmult_inj_r _ _ (2 ^ e)); [apply pos_ne, p2_pos|].
      rewrite E, inject_Z_mult, <- p2_Z by lia. rewrite <- Qmult_assoc, <- p2_plus. now replace (e' - e + e)%Z with e' by lia. }
    destruct (Z.eq_dec e e') as [->|Hne].
    - rewrite Z.sub_diag, Z.pow_0_r, Z.mul_1_r in F. injection F. auto.
    - exfalso. assert (2 ^ 1 <= 2 ^ (e' - e))%Z by (apply Z.pow_le_mono_r; lia). assert (2 ^ 52 <= Zpos m')%Z by (apply M; lia). nia. }
  intros E. destruct (Z.le_gt_cases e e') as [C|C].
  - apply G; auto; lia.
  - destruct (G m' e' m e) as [-> ->]; auto; try lia. now symmetry.
Qed.

Lemma value_unique x y r r' : fvalue x = Some r -> fvalue y = Some r' -> r == r' ->
  x = y \/ (f64_is_zero x = true /\ f64_is_zero y = true).
Proof.
  unfold fvalue, f64_is_zero. destruct x as [sx Vx], y as [sy Vy]; cbn [f64_sf].
  assert (NZ : forall (s : bool) m e, ~ inject_Z (if s then Zneg m else Zpos m) * 2 ^ e == 0).
  { intros s m e F. pose proof (p2_pos e) as P. apply Qmult_integral in F as [F|F]; [|apply (pos_ne _ P F)].
    change 0 with (inject_Z 0) in F. apply (proj1 (inject_Z_injective _ _)) in F. now destruct s. }
  destruct sx as [s| | |s m e]; try discriminate; destruct sy as [t| | |t m' e']; try discriminate; intros E1 E2 E;
    injection E1 as <-; injection E2 as <-; auto.
  - exfalso. apply (NZ t m' e'). now symmetry.
  - exfalso. now apply (NZ s m e).
  - left. apply f64_eq. cbn [f64_sf]. pose proof (p2_pos e) as P. pose proof (p2_pos e') as P'.
    assert (Q1 : 0 < inject_Z (Zpos m)) by (apply inject_pos; lia). assert (Q2 : 0 < inject_Z (Zpos m')) by (apply inject_pos; lia).
    change (Zneg m) with (- Zpos m)%Z in E. change (Zneg m') with (- Zpos m')%Z in E.
    assert (R1 : 0 < inject_Z (Zpos m) * 2 ^ e) by nra. assert (R2 : 0 < inject_Z (Zpos m') * 2 ^ e') by nra.
    assert (X : s = t /\ inject_Z (Zpos m) * 2 ^ e == inject_Z (Zpos m') * 2 ^ e').
    { destruct s, t; rewrite ?inject_Z_opp in E; (split; [reflexivity || (exfalso; lra)|lra]). }
    destruct X as [-> X]. destruct (finite_inj _ _ _ _ _ _ Vx Vy X) as [-> ->]. reflexivity.
Qed.

Lemma round_value n d : (0 < n)%Z -> (0 < d)%Z -> ratio n d < overflow ->
  exists r, fvalue (mk_f64 (round_q false n d)) = Some r /\ r == inject_Z (mm n d) * 2 ^ ex n d.
Proof.
  intros Hn Hd Ho. pose proof (round_pos n d Hn Hd) as P. pose proof (round_q_valid false n d ltac:(lia) Hd) as V.
  pose proof (mm_bounds n d Hn Hd) as [B _].
  pose proof (round_q_cases false n d Hn Hd) as (m & e & C & E).
  assert (Ev : inject_Z m * 2 ^ e == inject_Z (mm n d) * 2 ^ ex n d).
  { destruct C as [(-> & -> & _)|(E1 & -> & ->)]; [reflexivity|]. rewrite E1, p2_succ.
    change (2 ^ 53)%Z with (2 ^ 52 * 2)%Z. rewrite inject_Z_mult. change (inject_Z 2) with 2. ring. }
  set (x := mk_f64 (round_q false n d)) in *. assert (S : f64_sf x = round_q false n d) by now apply mk_f64_sf.
  destruct P as [[_ P]|[[P _]|[P _]]]; [| |].
  - destruct P as (r & P & _). exists r. split; [exact P|]. rewrite <- Ev. unfold fvalue in P. rewrite S, E in P.
    destruct m as [|p|p].
    + injection P as <-. change (inject_Z 0) with 0. ring.
    + destruct (971 <? e)%Z; [discriminate|]. injection P as <-. reflexivity.
    + lia.
  - exfalso. lra.
  - pose proof overflow_pos. pose proof (ratio_log n d Hn Hd) as [R1 _]. pose proof (p2_pos (flog2_q n d)). exfalso. lra.
Qed.
Lemma nearest_value n d x r : (0 < n)%Z -> (0 < d)%Z -> ratio n d < overflow -> nearest (ratio n d) x -> fvalue x = Some r ->
  r == inject_Z (mm n d) * 2 ^ ex n d.
Proof.
  intros Hn Hd Ho (r1 & Hr & H) Hx. rewrite Hx in Hr. injection Hr as <-.
  pose proof (ratio_log n d Hn Hd) as [R1 _]. assert (R0 : 0 < ratio n d) by (pose proof (p2_pos (flog2_q n d)); lra).
  destruct (fvalue_nonneg_or_neg x r Hx) as [(m' & e' & M1 & M2 & M3 & M4)|Hneg].
  - destruct (round_value n d Hn Hd Ho) as (r0 & V0 & E0). destruct (H _ _ V0) as [B1 B2]. rewrite E0 in B1, B2.
    destruct (near_all n d Hn Hd m' e' M1 M2) as [A1 A2]. rewrite <- M3 in A1, A2.
    assert (T : Qabs (ratio n d - r) == Qabs (ratio n d - inject_Z (mm n d) * 2 ^ ex n d)) by (now apply Qle_antisym).
    destruct (B2 T) as [G|G]; [exact G|]. symmetry in T. destruct (A2 T) as [G'|(_ & G2 & _)]; [now symmetry|].
    exfalso. destruct M4 as [->|(s & p & -> & _ & S)]; [discriminate|]. unfold even_last in G. rewrite S in G. congruence.
  - exfalso. destruct (H f64_zero 0 eq_refl) as [B _]. rewrite (Qabs_pos (ratio n d - r)), (Qabs_pos (ratio n d - 0)) in B by lra. lra.
Qed.

Lemma ratio_of q : 0 < q -> (0 < Qnum q)%Z /\ ratio (Qnum q) (Zpos (Qden q)) == q.
Proof.
  intros H. unfold Qlt in H; cbn in H. split; [lia|]. unfold ratio. destruct q as [n d]; cbn. rewrite (Qmake_Qdiv n d). reflexivity.
Qed.
Lemma nearest_pos_unique q x y : 0 < q < overflow -> nearest q x -> nearest q y -> x = y \/ (f64_is_zero x = true /\ f64_is_zero y = true).
Proof.
  intros [Hq Ho] Hx Hy. destruct (ratio_of q Hq) as [Hn E]. symmetry in E.
  apply (nearest_compat _ _ _ E) in Hx. apply (nearest_compat _ _ _ E) in Hy.
  assert (Hx' := Hx). assert (Hy' := Hy). destruct Hx' as (r & Hr & _), Hy' as (r' & Hr' & _).
  assert (Ho' : ratio (Qnum q) (Zpos (Qden q)) < overflow) by (rewrite <- E; exact Ho).
  apply (value_unique x y r r'); auto.
  rewrite (nearest_value _ _ x r Hn (Pos2Z.is_pos _) Ho' Hx Hr), (nearest_value _ _ y r' Hn (Pos2Z.is_pos _) Ho' Hy Hr'). reflexivity.
Qed.
Lemma nearest_zero x : nearest 0 x -> f64_is_zero x = true.
Proof.
  intros (r & Hr & H). destruct (H f64_zero 0 eq_refl) as [A _]. rewrite (Qabs_pos (0 - 0)) in A by lra.
  assert (R : r == 0) by (destruct (Qabs_cases (0 - r)) as [[? Q]|[? Q]]; rewrite Q in A; lra).
  destruct (value_unique x f64_zero r 0 Hr eq_refl R) as [->|[-> _]]; reflexivity.
Qed.
Lemma fopp_zero x : f64_is_zero (fopp x) = f64_is_zero x.
Proof. unfold f64_is_zero. cbn. now destruct (f64_sf x). Qed.
(** A number is rounded to one double, up to the sign of zero. *)
Lemma rounds_unique q x y : rounds_to q x -> rounds_to q y -> x = y \/ (f64_is_zero x = true /\ f64_is_zero y = true).
Proof.
  pose proof overflow_pos as O.
  intros [[A B]|[[A B]|[A B]]] [[A' B']|[[A' B']|[A' B']]]; try (exfalso; lra).
  - destruct (Qlt_le_dec 0 q) as [P|P]; [apply (nearest_pos_unique q); auto; lra|].
    destruct (Qlt_le_dec q 0) as [P'|P'].
    + apply nearest_opp in B. apply nearest_opp in B'.
      destruct (nearest_pos_unique (- q) (fopp x) (fopp y)) as [F|[F1 F2]]; auto; [lra| |].
      * left. rewrite <- (fopp_fopp x), F. apply fopp_fopp.
      * right. now rewrite !fopp_zero in *.
    + right. split; apply nearest_zero; eapply nearest_compat; eauto; lra.
  - left. apply f64_eq. congruence.
  - left. apply f64_eq. congruence.
Qed.
Lemma rounds_unique_signed q x y : rounds_to q x -> rounds_to q y -> sf_sign (f64_sf x) = sf_sign (f64_sf y) -> x = y.
Proof.
  intros Hx Hy E. destruct (rounds_unique q x y Hx Hy) as [->|[Zx Zy]]; auto. apply f64_eq. unfold f64_is_zero in *.
  destruct (f64_sf x); try discriminate. destruct (f64_sf y); try discriminate. cbn in E. now subst.
Qed.

(** * Between two numbers that round to the same double *)

Lemma nearest_between a b c x : a <= b -> b <= c -> nearest a x -> nearest c x -> nearest b x.
Proof.
  intros H1 H2 (r & Hr & Ha) (r1 & Hr1 & Hc). rewrite Hr in Hr1. injection Hr1 as <-. exists r. split; [exact Hr|].
  intros y r' Hy. destruct (Ha y r' Hy) as [A1 A2]. destruct (Hc y r' Hy) as [C1 C2].
  destruct (Qlt_le_dec r r') as [L|L].
  - assert (M : 2 * c <= r + r').
    { destruct (Qabs_cases (c - r)) as [[? Q1]|[? Q1]]; rewrite Q1 in C1; destruct (Qabs_cases (c - r')) as [[? Q2]|[? Q2]]; rewrite Q2 in C1; lra. }
    split.
    + destruct (Qabs_cases (b - r)) as [[? Q1]|[? Q1]]; rewrite Q1; destruct (Qabs_cases (b - r')) as [[? Q2]|[? Q2]]; rewrite Q2; lra.
    + intros T. apply C2.
      assert (M2 : 2 * b == r + r').
      { destruct (Qabs_cases (b - r)) as [[? Q1]|[? Q1]]; rewrite Q1 in T; destruct (Qabs_cases (b - r')) as [[? Q2]|[? Q2]]; rewrite Q2 in T; lra. }
      destruct (Qabs_cases (c - r)) as [[? Q1]|[? Q1]]; rewrite Q1; destruct (Qabs_cases (c - r')) as [[? Q2]|[? Q2]]; rewrite Q2; lra.
  - destruct (Qlt_le_dec r' r) as [L'|L'].
    2: { assert (E : r == r') by lra. split; [|now left]. assert (Qabs (b - r) == Qabs (b - r')) by (apply Qabs_wd; rewrite E; ring). lra. }
    assert (M : r + r' <= 2 * a).
    { destruct (Qabs_cases (a - r)) as [[? Q1]|[? Q1]]; rewrite Q1 in A1; destruct (Qabs_cases (a - r')) as [[? Q2]|[? Q2]]; rewrite Q2 in A1; lra. }
    split.
    + destruct (Qabs_cases (b - r)) as [[? Q1]|[? Q1]]; rewrite Q1; destruct (Qabs_cases (b - r')) as [[? Q2]|[? Q2]]; rewrite Q2; lra.
    + intros T. apply A2.
      assert (M2 : 2 * b == r + r').
      { destruct (Qabs_cases (b - r)) as [[? Q1]|[? Q1]]; rewrite Q1 in T; destruct (Qabs_cases (b - r')) as [[? Q2]|[? Q2]]; rewrite Q2 in T; lra. }
      destruct (Qabs_cases (a - r)) as [[? Q1]|[? Q1]]; rewrite Q1; destruct (Qabs_cases (a - r')) as [[? Q2]|[? Q2]]; rewrite Q2; lra.
Qed.
Lemma rounds_between a b c x : a <= b -> b <= c -> f64_is_finite x = true -> rounds_to a x -> rounds_to c x -> rounds_to b x.
Proof.
  intros H1 H2 F. assert (NI : forall s, f64_sf x <> S754_infinity s) by (intros s E; unfold f64_is_finite in F; rewrite E in F; discriminate).
  intros [[A B]|[[A B]|[A B]]]; try (now destruct (NI _ B)). intros [[A' B']|[[A' B']|[A' B']]]; try (now destruct (NI _ B')).
  left. split; [lra|]. now apply (nearest_between a b c).
Qed.
(** A double is what its own value rounds to. *)
Lemma rounds_self x r : fvalue x = Some r -> - overflow < r < overflow -> rounds_to r x.
Proof.
  intros Hr Ho. left. split; [exact Ho|]. exists r. split; [exact Hr|]. intros y r' _.
  assert (Z0 : Qabs (r - r) == 0) by (assert (E : r - r == 0) by ring; rewrite E; reflexivity).
  rewrite Z0. split; [apply Qabs_nonneg|]. intros T. left.
  destruct (Qabs_cases (r - r')) as [[? Q1]|[? Q1]]; rewrite Q1 in T; lra.
Qed.

(** * The text of a number *)

Lemma digits_all ds : digits ds <-> ds <> [] /\ all_digits ds.
Proof. unfold digits. now rewrite digits_are. Qed.
Lemma parse_exp_spec ep E : parse_exp ep = Some E <-> exponent_value ep E.
Proof.
  unfold exponent_value. split.
  - unfold parse_exp. destruct ep as [|c r]; [intros H; injection H as <-; auto|]. intros H. right. revert H.
    destruct ((c =? cLE) || (c =? cUE))%N eqn:Ec; [|discriminate].
    assert (Hc : c = cLE \/ c = cUE) by (apply orb_prop in Ec as [Ec|Ec]; apply N.eqb_eq in Ec; auto).
    destruct (match r with [] => _ | _ => _ end) as [neg r'] eqn:Er.
    destruct (span_digits r') as [ds rest] eqn:Es. destruct (is_empty ds) eqn:Ed; [discriminate|].
    destruct (is_empty rest) eqn:Ere; [|discriminate]. intros H. injection H as <-.
    destruct rest; [|discriminate]. destruct (span_digits_spec _ _ _ Es) as (E1 & E2 & _). rewrite app_nil_r in E1. subst r'.
    assert (Hd : digits ds) by (apply digits_all; split; auto; destruct ds; [discriminate|congruence]).
    change (dec_val ds) with (digits_value ds).
    destruct r as [|x r1].
    + injection Er as <- <-. destruct (proj1 Hd eq_refl).
    + destruct (N.eqb_spec x cPLUS) as [->|].
      * injection Er as <- <-. exists c, [cPLUS], r1. repeat split; auto; apply Hd.
      * destruct (N.eqb_spec x cMINUS) as [->|].
        -- injection Er as <- <-. exists c, [cMINUS], r1. repeat split; auto; apply Hd.
        -- injection Er as <- E1. exists c, [], ds. split; [now rewrite E1|]. split; [exact Hc|]. split; [exact Hd|]. left. split; auto.
  - intros [[-> ->]|(e & sg & ds & -> & He & Hd & H)]; [reflexivity|]. apply digits_all in Hd as [Hne Hd].
    unfold parse_exp. replace ((e =? cLE) || (e =? cUE))%N with true by (destruct He; subst; reflexivity).
    change (digits_value ds) with (dec_val ds) in H.
    assert (Hs : span_digits ds = (ds, [])) by (rewrite <- (app_nil_r ds) at 1; now apply span_digits_app).
    assert (Hem : is_empty ds = false) by (destruct ds; auto; congruence).
    destruct H as [[[->| ->] ->]|[-> ->]]; cbn [app].
    + destruct ds as [|c t]; [congruence|]. inversion Hd; subst.
      replace (c =? cPLUS)%N with false by (unfold is_digit in *; lia).
      replace (c =? cMINUS)%N with false by (unfold is_digit in *; lia).
      rewrite Hs. reflexivity.
    + change (cPLUS =? cPLUS)%N with true. cbv iota. now rewrite Hs, Hem.
    + change (cMINUS =? cPLUS)%N with false. change (cMINUS =? cMINUS)%N with true. cbv iota. now rewrite Hs, Hem.
Qed.
Lemma exponent_value_head ep E : exponent_value ep E -> match ep with [] => True | c :: _ => is_digit c = false /\ c <> cDOT end.
Proof. intros [[-> _]|(e & sg & ds & -> & [->| ->] & _)]; [exact I|split; [reflexivity|discriminate]|split; [reflexivity|discriminate]]. Qed.

Lemma parse_f64_spec s x : parse_f64 s = Some x <->
  exists (neg : bool) ip fp ds ep E, s = (if neg then [cMINUS] else []) ++ ip ++ fp ++ ep /\
    digits ip /\ fraction_digits fp ds /\ exponent_value ep E /\
    x = mk_f64 (round_dec neg (digits_value (ip ++ ds)) (E - Z.of_nat (length ds))).
Proof.
  split.
  - unfold parse_f64. destruct (match s with [] => _ | _ => _ end) as [neg b] eqn:En.
    assert (Hs : s = (if neg then [cMINUS] else []) ++ b).
    { destruct s as [|c r]; [injection En as <- <-; reflexivity|]. destruct (N.eqb_spec c cMINUS) as [->|]; injection En as <- <-; reflexivity. }
    destruct (span_digits b) as [ip r] eqn:Ei. destruct (is_empty ip) eqn:Eie; [discriminate|].
    destruct (span_digits_spec _ _ _ Ei) as (E1 & E2 & E3).
    assert (Hi : digits ip) by (apply digits_all; split; auto; destruct ip; [discriminate|congruence]).
    destruct (match r with [] => _ | _ => _ end) as [[fp r'] bad] eqn:Ef. destruct bad; [discriminate|].
    destruct (parse_exp r') as [E|] eqn:Ep; [|discriminate]. intros H. injection H as <-. apply parse_exp_spec in Ep.
    assert (Hf : exists ft, r = ft ++ r' /\ fraction_digits ft fp).
    { destruct r as [|c r1]; [injection Ef as <- <-; exists []; split; auto; now left|].
      destruct (N.eqb_spec c cDOT) as [->|].
      - destruct (span_digits r1) as [fp' r''] eqn:Ef2. injection Ef as -> -> Hb.
        destruct (span_digits_spec _ _ _ Ef2) as (F1 & F2 & _). exists (cDOT :: fp). split; [now rewrite F1|]. right. split; auto.
        apply digits_all. split; auto. destruct fp; [discriminate|congruence].
      - injection Ef as <- <-. exists []. split; auto. now left. }
    destruct Hf as (ft & -> & Hf). exists neg, ip, ft, fp, r', E. rewrite Hs, E1. split; [reflexivity|]. split; [exact Hi|]. split; [exact Hf|]. split; [exact Ep|]. reflexivity.
  - intros (neg & ip & fp & ds & ep & E & -> & Hi & Hf & Hx & ->). apply digits_all in Hi as [Hne Hi]. unfold parse_f64.
    rewrite (sign_match neg ip _ (fun a b => (a, b)) (false, [])) by auto.
    pose proof (exponent_value_head ep E Hx) as Hh. apply parse_exp_spec in Hx.
    assert (Hie : is_empty ip = false) by (destruct ip; auto; congruence).
    destruct Hf as [[-> ->]|[-> Hd]]; cbn [app].
    + rewrite span_digits_app; [|exact Hi|destruct ep; [exact I|apply Hh]]. rewrite Hie.
      destruct ep as [|c r]; [rewrite Hx; reflexivity|]. destruct (N.eqb_spec c cDOT) as [->|]; [destruct Hh; congruence|]. rewrite Hx. reflexivity.
    + apply digits_all in Hd as [Hdn Hd]. rewrite span_digits_app; [|exact Hi|reflexivity]. rewrite Hie.
      change (cDOT =? cDOT)%N with true. cbv iota. rewrite span_digits_app; [|exact Hd|destruct ep; [exact I|apply Hh]].
      replace (is_empty ds) with false by (destruct ds; auto; congruence). rewrite Hx. reflexivity.
Qed.

Lemma signed_sf neg x : signed neg x <-> f64_sf x <> S754_nan /\ sf_sign (f64_sf x) = neg.
Proof. unfold signed, sf_sign. destruct (f64_sf x); intuition (try congruence); discriminate. Qed.
Lemma round_dec_nan s M E : round_dec s M E <> S754_nan.
Proof.
  unfold round_dec. assert (G : forall n d, round_q s n d <> S754_nan).
  { intros n d. unfold round_q. destruct (n =? 0)%Z; [discriminate|]. destruct (if (_ =? _)%Z then _ else _) as [m e]. destruct m; try discriminate. now destruct (971 <? e)%Z. }
  destruct (E <? 0)%Z; apply G.
Qed.
Lemma parse_f64_denotes s x : parse_f64 s = Some x <-> number_denotes s x.
Proof.
  split.
  - intros H. apply parse_f64_spec in H as (neg & ip & fp & ds & ep & E & -> & Hi & Hf & Hx & ->).
    exists neg, ((if neg then -1 else 1) * (inject_Z (Z.of_N (digits_value (ip ++ ds))) * 10 ^ (E - Z.of_nat (length ds)))).
    split; [exists ip, fp, ds, ep, E; repeat split; auto; apply Hi|].
    split; [apply round_dec_rounds|]. apply signed_sf. rewrite mk_f64_sf by apply round_dec_valid. split; [apply round_dec_nan|apply round_dec_sf_sign].
  - intros (neg & q & (ip & fp & ds & ep & E & -> & Hi & Hf & Hx & Hq) & Hr & Hs). apply parse_f64_spec.
    exists neg, ip, fp, ds, ep, E. split; [reflexivity|]. split; [exact Hi|]. split; [exact Hf|]. split; [exact Hx|].
    apply (rounds_unique_signed q); [exact Hr| |].
    + eapply rounds_compat; [symmetry; exact Hq|]. apply round_dec_rounds.
    + apply signed_sf in Hs as [_ ->]. rewrite mk_f64_sf by apply round_dec_valid. symmetry. apply round_dec_sf_sign.
Qed.
