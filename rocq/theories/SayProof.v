(** Proofs about the messages of the command line tool. *)
From Coq Require Import SpecFloat QArith Qabs Lqa.
From Verif Require Import Chars Floats NumProof Json Shared EncodeApi JsonText Serde Utf8 ErrText RoundProof Cli SpecCli CliPath CliProof.

Local Open Scope nat_scope.

(** * Words and characters *)

Lemma white_is_ws c : white c <-> is_ws c = true.
Proof.
  unfold white, is_ws. cbn [In]. rewrite !Bool.orb_true_iff, !Bool.andb_true_iff, !N.leb_le, !N.eqb_eq. lia.
Qed.
Lemma not_white c : ~ white c <-> is_ws c = false.
Proof. rewrite white_is_ws. destruct (is_ws c); split; congruence. Qed.
Lemma wc_white c s n : white c -> word_count s n -> word_count (c :: s) n.
Proof.
  intros Hc H. inversion H as [? Hs|a w b k Ha Hw Hd Hb Hk]; subst.
  - constructor. now constructor.
  - change (c :: a ++ w ++ b) with ((c :: a) ++ w ++ b). constructor; auto.
Qed.
Lemma words_spec s : word_count s (words false s) /\
  exists w b, s = w ++ b /\ Forall (fun c => ~ white c) w /\ (b = [] \/ exists c r, b = c :: r /\ white c) /\ word_count b (words true s).
Proof.
  induction s as [|c s [IH1 (w & b & E & Hw & Hb & IH2)]]; cbn [words].
  - split; [repeat constructor|]. exists [], []. repeat split; auto. repeat constructor.
  - destruct (is_ws c) eqn:Ec.
    + apply white_is_ws in Ec. split; [now apply wc_white|]. exists [], (c :: s). split; [reflexivity|]. split; [constructor|]. split; [right; eauto|]. now apply wc_white.
    + apply not_white in Ec. split.
      * change (1 + words true s) with (S (words true s)). rewrite E at 1. apply (wc_word [] (c :: w) b); auto. discriminate.
      * exists (c :: w), b. split; [now rewrite E at 1|]. split; [now constructor|]. split; [exact Hb|exact IH2].
Qed.
Lemma dark_spec s : dark_count s (length (filter (fun c => negb (is_ws c)) s)).
Proof.
  induction s as [|c s IH]; cbn [filter]; [constructor|]. destruct (is_ws c) eqn:E; cbn [negb].
  - constructor; [now apply white_is_ws|exact IH].
  - cbn [length]. constructor; [now apply not_white|exact IH].
Qed.
Lemma dark_fun s n m : dark_count s n -> dark_count s m -> n = m.
Proof. intros H. revert m. induction H; intros m Hm; inversion Hm; subst; auto; contradiction. Qed.
Lemma white_prefix a b w w' r r' : Forall white a -> Forall white b -> Forall (fun c => ~ white c) w -> Forall (fun c => ~ white c) w' -> w <> [] -> w' <> [] ->
  a ++ w ++ r = b ++ w' ++ r' -> a = b /\ w ++ r = w' ++ r'.
Proof.
  intros Ha. revert b. induction Ha as [|x a Hx Ha IH]; intros b Hb Hw Hw' Nw Nw' E.
  - destruct Hb as [|y b Hy Hb]; [auto|]. destruct w as [|z w]; [congruence|]. injection E as -> _. inversion Hw; subst. contradiction.
  - destruct Hb as [|y b Hy Hb].
    + destruct w' as [|z w']; [congruence|]. injection E as -> _. inversion Hw'; subst. contradiction.
    + injection E as -> E. destruct (IH b Hb Hw Hw' Nw Nw' E) as [-> E']. auto.
Qed.
Lemma dark_prefix w w' b b' : Forall (fun c => ~ white c) w -> Forall (fun c => ~ white c) w' ->
  (b = [] \/ exists c r, b = c :: r /\ white c) -> (b' = [] \/ exists c r, b' = c :: r /\ white c) -> w ++ b = w' ++ b' -> w = w' /\ b = b'.
Proof.
  intros Hw. revert w'. induction Hw as [|x w Hx Hw IH]; intros w' Hw' Hb Hb' E.
  - destruct Hw' as [|y w' Hy Hw']; [auto|]. destruct Hb as [->|(c & r & -> & Hc)]; [discriminate|]. injection E as -> _. contradiction.
  - destruct Hw' as [|y w' Hy Hw'].
    + destruct Hb' as [->|(c & r & -> & Hc)]; [discriminate|]. injection E as -> _. contradiction.
    + injection E as -> E. destruct (IH w' Hw' Hb Hb' E) as [-> ->]. auto.
Qed.
Lemma word_fun s n m : word_count s n -> word_count s m -> n = m.
Proof.
  intros H. revert m. induction H as [s Hs|a w b n Ha Hn Hw Hb Hc IH]; intros m Hm; inversion Hm as [? Hs'|a' w' b' k Ha' Hn' Hw' Hb' Hc' E]; subst; auto.
  - apply Forall_app in Hs as [_ Hs]. apply Forall_app in Hs as [Hs _]. destruct w' as [|x w']; [congruence|]. inversion Hs; inversion Hw'; subst. contradiction.
  - apply Forall_app in Hs' as [_ Hs]. apply Forall_app in Hs as [Hs _]. destruct w as [|x w]; [congruence|]. inversion Hs; inversion Hw; subst. contradiction.
  - apply white_prefix in E as [-> E]; auto. apply dark_prefix in E as [-> ->]; auto.
Qed.
Lemma estimate_spec text : token_estimate text (estimate_tokens text).
Proof.
  unfold estimate_tokens. set (d := length _). exists d, (words false text). split; [apply dark_spec|]. split; [apply words_spec|].
  pose proof (Nat.div_mod d 4 ltac:(lia)). pose proof (Nat.mod_upper_bound d 4 ltac:(lia)). lia.
Qed.
(** The description determines the estimate. *)
Lemma estimate_fun text n m : token_estimate text n -> token_estimate text m -> n = m.
Proof.
  intros (d & k & Hd & Hk & H1 & H2 & H3 & H4) (d' & k' & Hd' & Hk' & K1 & K2 & K3 & K4).
  pose proof (dark_fun _ _ _ Hd Hd') as <-. pose proof (word_fun _ _ _ Hk Hk') as <-. lia.
Qed.
Lemma estimate_bound text : estimate_tokens text <= S (length text).
Proof.
  assert (H1 : length (filter (fun c => negb (is_ws c)) text) <= length text).
  { induction text as [|c t IH]; cbn [filter]; [auto|]. destruct (negb (is_ws c)); cbn [length]; lia. }
  assert (H2 : forall i, words i text <= length text).
  { clear H1. induction text as [|c t IH]; intros i; cbn [words length]; [lia|]. destruct (is_ws c); [specialize (IH false); lia|]. specialize (IH true). destruct i; lia. }
  specialize (H2 false). unfold estimate_tokens. pose proof (Nat.div_le_upper_bound (length (filter (fun c => negb (is_ws c)) text)) 4 (length text) ltac:(lia) ltac:(lia)). lia.
Qed.

(** * The percentage *)

Local Open Scope Q_scope.

Definition eps : Q := 2 ^ (-53).
Definition sf_value (x : spec_float) : Q :=
  match x with S754_finite _ m e => inject_Z (Zpos m) * 2 ^ e | _ => 0 end.
Definition is_pos (x : spec_float) : Prop := exists m e, x = S754_finite false m e.

Lemma half_even_half N D : (0 < D)%Z -> (2 * Z.abs (N - div_half_even N D * D) <= D)%Z.
Proof.
  intros HD. unfold div_half_even. pose proof (Z.div_mod N D ltac:(lia)) as E. pose proof (Z.mod_pos_bound N D HD) as B.
  set (q := (N / D)%Z) in *. set (r := (N mod D)%Z) in *. clearbody q r.
  destruct (Z.ltb_spec (2 * r) D) as [H1|H1].
  - replace (N - q * D)%Z with r by (rewrite E; ring). lia.
  - destruct (Z.ltb_spec D (2 * r)) as [H2|H2].
    + replace (N - (q + 1) * D)%Z with (r - D)%Z by (rewrite E; ring). lia.
    + destruct (Z.even q).
      * replace (N - q * D)%Z with r by (rewrite E; ring). lia.
      * replace (N - (q + 1) * D)%Z with (r - D)%Z by (rewrite E; ring). lia.
Qed.
Lemma round_near n d : (0 < n)%Z -> (0 < d)%Z -> 2 ^ (-900) <= ratio n d -> ratio n d <= 2 ^ 900 ->
  is_pos (round_q false n d) /\ ratio n d * (1 - eps) <= sf_value (round_q false n d) /\ sf_value (round_q false n d) <= ratio n d * (1 + eps).
Proof.
  intros Hn Hd Hlo Hhi. pose proof (ratio_log n d Hn Hd) as [L1 L2].
  assert (F1 : (-901 < flog2_q n d)%Z).
  { apply Z.lt_nge. intros K. apply (Qle_not_lt _ _ Hlo). eapply Qlt_le_trans; [exact L2|]. apply p2_le. lia. }
  assert (F2 : (flog2_q n d < 901)%Z).
  { apply Z.lt_nge. intros K. assert (2 ^ 901 <= 2 ^ 900).
    { eapply Qle_trans; [apply (p2_le 901 (flog2_q n d)); lia|]. eapply Qle_trans; [exact L1|exact Hhi]. }
    change 901%Z with (900 + 1)%Z in H. rewrite p2_succ in H. pose proof (p2_pos 900). lra. }
  assert (Ex : ex n d = (flog2_q n d - 52)%Z) by (unfold ex; lia).
  pose proof (mm_bounds n d Hn Hd) as [B1 B2]. specialize (B2 ltac:(lia)).
  assert (D : Qabs (ratio n d - inject_Z (mm n d) * 2 ^ ex n d) <= (1 # 2) * 2 ^ ex n d).
  { rewrite (dist n d Hn Hd). unfold unit. pose proof (half_even_half (NN n d) (DD n d) (DD_pos n d Hn Hd)) as K. fold (mm n d) in K.
    apply inject_le in K. rewrite inject_Z_mult in K. pose proof (inject_pos _ (DD_pos n d Hn Hd)) as P. pose proof (p2_pos (ex n d)) as P2.
    set (x := inject_Z (Z.abs _)) in *. set (y := inject_Z (DD n d)) in *. set (z := 2 ^ ex n d) in *.
    setoid_replace (x * (z / y)) with ((x * z) / y) by (field; lra). apply Qle_shift_div_r; [exact P|].
    change (inject_Z 2) with 2 in K. nra. }
  assert (U : 2 ^ ex n d * (1 # 2) <= ratio n d * eps).
  { rewrite Ex. replace (flog2_q n d - 52)%Z with (flog2_q n d + (-52))%Z by lia. rewrite p2_plus. unfold eps.
    change (2 ^ (-52)) with (1 # 4503599627370496). change (2 ^ (-53)) with (1 # 9007199254740992). lra. }
  assert (V : ratio n d * (1 - eps) <= inject_Z (mm n d) * 2 ^ ex n d /\ inject_Z (mm n d) * 2 ^ ex n d <= ratio n d * (1 + eps)).
  { apply Qabs_diff_Qle_condition in D. split; [lra|lra]. }
  destruct (round_q_cases false n d Hn Hd) as (m & e & C & ->).
  assert (W : inject_Z m * 2 ^ e == inject_Z (mm n d) * 2 ^ ex n d).
  { destruct C as [(-> & -> & _)|(E & -> & ->)]; [reflexivity|]. rewrite E, p2_succ. change (2 ^ 53)%Z with (2 ^ 52 * 2)%Z. rewrite inject_Z_mult. change (inject_Z 2) with 2. ring. }
  assert (M : (0 < m)%Z /\ (e <= 971)%Z) by (destruct C as [(-> & -> & _)|(E & -> & ->)]; lia).
  destruct m as [|p|p]; [lia| |lia]. destruct (Z.ltb_spec 971 e); [lia|]. split; [now exists p, e|]. cbn [sf_value]. rewrite W. exact V.
Qed.

Lemma eps_small : 0 < eps /\ eps <= 1 # 1000000.
Proof. unfold eps. change (2 ^ (-53)) with (1 # 9007199254740992). lra. Qed.
Lemma frac_ratio m e : let '(n, d) := f64_frac m e in (0 < n)%Z /\ (0 < d)%Z /\ ratio n d == inject_Z (Zpos m) * 2 ^ e.
Proof.
  unfold f64_frac. pose proof (pow2_pos e). pose proof (pow2_pos (- e)). split; [nia|]. split; [assumption|].
  unfold ratio. rewrite inject_Z_mult, (pow2_ratio e). pose proof (inject_pos _ (pow2_pos (- e))) as P. field. lra.
Qed.
Lemma ratio_one n : ratio n 1 == inject_Z n.
Proof. unfold ratio. change (inject_Z 1) with 1. field. Qed.
Definition around (k : Q) (r x : Q) : Prop := r * (1 - k * eps) <= x /\ x <= r * (1 + k * eps).
(** Another rounding. *)
Lemma around_step k r x y : 0 <= r -> 0 <= k -> k <= 10 -> around k r x -> around 1 x y -> around (k + 2) r y.
Proof.
  unfold around. intros Hr Hk Hk' [A B] [C D]. destruct eps_small as [E1 E2]. set (e := eps) in *. clearbody e.
  assert (Re : 0 <= r * e) by (apply Qmult_le_0_compat; lra). assert (Ree : r * e * e * k <= r * e).
  { assert (K : 0 <= e * (10 - k)) by (apply Qmult_le_0_compat; lra). assert (K2 : 0 <= r * e * (1 - e * k)) by (apply Qmult_le_0_compat; lra). lra. }
  assert (Rk : 0 <= r * e * k) by (apply Qmult_le_0_compat; assumption). split.
  - assert (F : r * (1 - k * e) * (1 - 1 * e) <= x * (1 - 1 * e)) by (apply Qmult_le_compat_r; [exact A|lra]).
    assert (0 <= r * e * k * e) by (apply Qmult_le_0_compat; lra). lra.
  - assert (F : x * (1 + 1 * e) <= r * (1 + k * e) * (1 + 1 * e)) by (apply Qmult_le_compat_r; [exact B|lra]). lra.
Qed.
Lemma around_times k r x c : 0 <= c -> around k r x -> around k (r * c) (x * c).
Proof.
  intros Hc [A B]. split.
  - setoid_replace (r * c * (1 - k * eps)) with (r * (1 - k * eps) * c) by ring. now apply Qmult_le_compat_r.
  - setoid_replace (r * c * (1 + k * eps)) with (r * (1 + k * eps) * c) by ring. now apply Qmult_le_compat_r.
Qed.
Lemma around_div r D J a b : 0 < J -> 0 < r -> D == r * J -> around 1 D a -> around 1 J b -> 0 < b /\ around 3 r (a / b).
Proof.
  unfold around. intros HJ Hr HD [A B] [C E]. destruct eps_small as [E1 E2]. set (e := eps) in *. clearbody e.
  assert (Hb : 0 < b) by nra. split; [exact Hb|]. rewrite HD in A, B. assert (P : 0 < r * J) by nra.
  assert (Pe : 0 < r * J * e) by nra. assert (Pee : r * J * e * e <= r * J * e * (1 # 1000000)) by nra. assert (Pe2 : 0 < r * J * e * e) by nra. split.
  - apply Qle_shift_div_l; [exact Hb|]. 
    assert (F : (r * (1 - 3 * e)) * b <= (r * (1 - 3 * e)) * (J * (1 + 1 * e))).
    { rewrite !(Qmult_comm (r * (1 - 3 * e))). apply Qmult_le_compat_r; [exact E|]. nra. }
    lra.
  - apply Qle_shift_div_r; [exact Hb|].
    assert (F : (r * (1 + 3 * e)) * (J * (1 - 1 * e)) <= (r * (1 + 3 * e)) * b).
    { rewrite !(Qmult_comm (r * (1 + 3 * e))). apply Qmult_le_compat_r; [exact C|]. nra. }
    lra.
Qed.
Lemma around_compat k r r' x : r == r' -> around k r x -> around k r' x.
Proof. unfold around. intros ->. auto. Qed.

Lemma of_nat_near n : (0 < n)%nat -> (Z.of_nat n <= 2 ^ 65)%Z -> is_pos (f64_of_nat n) /\ around 1 (inject_Z (Z.of_nat n)) (sf_value (f64_of_nat n)).
Proof.
  intros Hn Hl. unfold f64_of_nat. pose proof (ratio_one (Z.of_nat n)) as R.
  destruct (round_near (Z.of_nat n) 1) as (P & A & B); try lia.
  - rewrite R. apply Qle_trans with 1; [|change 1 with (inject_Z 1); apply (proj1 (inject_le _ _)); lia]. change 1 with (2 ^ 0). apply p2_le. lia.
  - rewrite R. apply Qle_trans with (inject_Z (2 ^ 65)); [now apply (proj1 (inject_le _ _))|]. rewrite <- p2_Z by lia. apply p2_le. lia.
  - split; [exact P|]. rewrite R in A, B. unfold around. split; lra.
Qed.
Lemma quotient_near x y q : is_pos x -> is_pos y -> sf_value x / sf_value y == q -> 2 ^ (-900) <= q -> q <= 2 ^ 900 ->
  is_pos (f64_quotient x y) /\ around 1 q (sf_value (f64_quotient x y)).
Proof.
  intros (m & e & ->) (m' & e' & ->) Hq Hlo Hhi. cbn [f64_quotient sf_value] in *.
  pose proof (frac_ratio m e) as F. pose proof (frac_ratio m' e') as F'. destruct (f64_frac m e) as [n d], (f64_frac m' e') as [n' d'].
  destruct F as (Pn & Pd & R), F' as (Pn' & Pd' & R'). rewrite <- R, <- R' in Hq.
  assert (E : ratio (n * d') (d * n') == q).
  { rewrite <- Hq. unfold ratio. rewrite !inject_Z_mult. pose proof (inject_pos n' Pn'). pose proof (inject_pos d Pd). pose proof (inject_pos d' Pd').
    field. repeat split; lra. }
  destruct (round_near (n * d') (d * n')) as (P & A & B); try nia; try (rewrite E; assumption). split; [exact P|]. rewrite E in A, B. unfold around. split; lra.
Qed.
Lemma times_near x k q : is_pos x -> (0 < k)%Z -> sf_value x * inject_Z k == q -> 2 ^ (-900) <= q -> q <= 2 ^ 900 ->
  is_pos (f64_times x k) /\ around 1 q (sf_value (f64_times x k)).
Proof.
  intros (m & e & ->) Hk Hq Hlo Hhi. cbn [f64_times sf_value] in *.
  pose proof (frac_ratio m e) as F. destruct (f64_frac m e) as [n d]. destruct F as (Pn & Pd & R). rewrite <- R in Hq.
  assert (E : ratio (n * k) d == q).
  { rewrite <- Hq. unfold ratio. rewrite inject_Z_mult. pose proof (inject_pos d Pd). field. lra. }
  destruct (round_near (n * k) d) as (P & A & B); try nia; try (rewrite E; assumption). split; [exact P|]. rewrite E in A, B. unfold around. split; lra.
Qed.
Lemma tenths_near x : is_pos x -> Qabs (inject_Z (Z.of_N (tenths x)) - 10 * sf_value x) <= 1 # 2.
Proof.
  intros (m & e & ->). cbn [tenths sf_value]. pose proof (frac_ratio m e) as F. destruct (f64_frac m e) as [n d]. destruct F as (Pn & Pd & R).
  pose proof (half_even_half (n * 10) d Pd) as H. set (t := div_half_even (n * 10) d) in *.
  assert (Ht : (0 <= t)%Z) by (apply (half_even_bounds (n * 10) d 0 (n * 10)); nia).
  rewrite Z2N.id by exact Ht. rewrite <- R. apply Qabs_Qle_condition.
  assert (E : (- d <= 2 * (n * 10 - t * d) /\ 2 * (n * 10 - t * d) <= d)%Z) by lia. destruct E as [E1 E2].
  apply inject_le in E1, E2. unfold Z.sub in E1, E2.
  repeat rewrite ?inject_Z_mult, ?inject_Z_plus, ?inject_Z_opp in E1. repeat rewrite ?inject_Z_mult, ?inject_Z_plus, ?inject_Z_opp in E2.
  change (inject_Z 2) with 2 in *. change (inject_Z 10) with 10 in *. pose proof (inject_pos d Pd) as P. unfold ratio.
  set (dd := inject_Z d) in *. set (tt := inject_Z t) in *. set (nn := inject_Z n) in *.
  assert (G : nn == nn / dd * dd) by (field; lra). set (v := nn / dd) in *. rewrite G in E1, E2. clear G. clearbody v dd tt.
  split; apply (Qmult_lt_0_le_reg_r _ _ dd); try exact P; lra.
Qed.

Lemma percent_spec saved all : (0 < saved <= all)%nat -> (N.of_nat all <= 2 ^ 64)%N -> percentage saved all (one_decimal (percent saved all)).
Proof.
  intros [H0 H1] H2. unfold percentage, one_decimal, percent. replace (0 <? all)%nat with true by (symmetry; apply Nat.ltb_lt; lia).
  set (x := f64_times _ _). exists (tenths x / 10)%N, (tenths x mod 10)%N. split; [reflexivity|]. split; [apply N.mod_lt; discriminate|].
  rewrite <- N.div_mod by discriminate.
  assert (L : (Z.of_nat all <= 2 ^ 65)%Z) by lia.
  destruct (of_nat_near saved H0 ltac:(lia)) as [P1 A1]. destruct (of_nat_near all ltac:(lia) L) as [P2 A2].
  set (S := inject_Z (Z.of_nat saved)) in *. set (J := inject_Z (Z.of_nat all)) in *.
  assert (HS : 1 <= S) by (unfold S; change 1 with (inject_Z 1); apply (proj1 (inject_le _ _)); lia).
  assert (HJ : S <= J) by (unfold S, J; apply (proj1 (inject_le _ _)); lia).
  assert (HJ2 : J <= 2 ^ 65) by (rewrite p2_Z by lia; unfold J; now apply (proj1 (inject_le _ _))).
  set (r := S / J). assert (Er : S == r * J) by (unfold r; field; lra).
  assert (Hr : 0 < r) by (unfold r; apply Qlt_shift_div_l; lra). assert (Hr1 : r <= 1) by (unfold r; apply Qle_shift_div_r; lra).
  assert (Hrl : 2 ^ (-65) <= r).
  { unfold r. apply Qle_shift_div_l; [lra|]. apply Qle_trans with (2 ^ (-65) * 2 ^ 65); [|rewrite <- p2_plus; change (2 ^ (-65 + 65)) with 1; exact HS].
    rewrite !(Qmult_comm (2 ^ (-65))). apply Qmult_le_compat_r; [exact HJ2|]. apply Qlt_le_weak, p2_pos. }
  destruct (around_div r S J _ _ ltac:(lra) Hr Er A1 A2) as [Hb A3]. set (q0 := sf_value (f64_of_nat saved) / sf_value (f64_of_nat all)) in *.
  destruct eps_small as [E1 E2].
  assert (Hq0 : r * (1 # 2) <= q0 /\ q0 <= 2) by (destruct A3; split; nra).
  assert (P900 : 2 ^ (-900) <= 2 ^ (-66) /\ 4 * 100 <= 2 ^ 900).
  { split; [apply p2_le; lia|]. apply Qle_trans with (2 ^ 10); [change (2 ^ 10) with 1024; lra|apply p2_le; lia]. }
  assert (P66 : 2 ^ (-65) * (1 # 2) == 2 ^ (-66)) by (change (1 # 2) with (2 ^ (-1)); now rewrite <- p2_plus).
  destruct (quotient_near _ _ q0 P1 P2 ltac:(reflexivity)) as [P3 A4]; [lra|lra|].
  assert (A5 : around 5 r (sf_value (f64_quotient (f64_of_nat saved) (f64_of_nat all)))) by (apply (around_step 3 r q0); auto; lra).
  set (q1 := sf_value (f64_quotient (f64_of_nat saved) (f64_of_nat all))) in *.
  assert (Hq1 : r * (1 # 2) <= q1 /\ q1 <= 2) by (destruct A5; split; nra).
  destruct (times_near (f64_quotient (f64_of_nat saved) (f64_of_nat all)) 100 (q1 * 100) P3 ltac:(lia) ltac:(reflexivity)) as [P4 A6]; [lra|lra|].
  fold x in P4, A6.
  assert (A7 : around 7 (r * 100) (sf_value x)) by (apply (around_step 5 (r * 100) (q1 * 100)); [lra|lra|lra|apply around_times; [lra|exact A5]|exact A6]).
  pose proof (tenths_near x P4) as T. apply Qabs_Qle_condition in T. apply Qabs_Qle_condition.
  set (tn := inject_Z (Z.of_N (tenths x))) in *. set (v := sf_value x) in *.
  assert (R100 : 100 * S / J == 100 * r) by (unfold r; field; lra). rewrite R100.
  assert (Ee : 700 * eps <= 1 # 10 ^ 12) by (unfold eps; change (2 ^ (-53)) with (1 # 9007199254740992); now apply Qle_bool_iff).
  assert (Rr : r * eps <= eps) by nra. destruct A7 as [A7 A8]. clear - T Ee Rr A7 A8.
  setoid_replace (tn / 10) with (tn * (1 # 10)) by field. destruct T as [T1 T2].
  set (z := (1 # 10 ^ 12)) in *. clearbody tn v z. split; lra.
Qed.

Local Open Scope nat_scope.

(** * The messages *)

Lemma messages_spec a input text : (N.of_nat (length input) < 2 ^ 64)%N -> messages a input text (stats_said a input text ++ done_said a).
Proof.
  intros Hl. exists (stats_said a input text), (done_said a). split; [reflexivity|]. split.
  - unfold stats_said, direct. destruct (a_stats a); cbn [andb]; [|right; auto].
    destruct (detect_mode a) eqn:Em; [|right; split; [left; now apply decodes_mode|reflexivity]].
    left. split; [now apply encodes_mode|]. split; [reflexivity|].
    exists (estimate_tokens input), (estimate_tokens text). split; [apply estimate_spec|]. split; [apply estimate_spec|]. cbv zeta.
    assert (E : estimates_text (estimate_tokens input) (estimate_tokens text) =
      [cLF] ++ lit "Token estimates: ~" ++ shows (estimate_tokens input) ++ lit " (JSON) " ++ [8594%N] ++ lit " ~" ++ shows (estimate_tokens text) ++ lit " (TOON)").
    { unfold estimates_text, arrow, shows, nat_num. reflexivity. }
    rewrite E. destruct (Nat.ltb_spec 0 (estimate_tokens input - estimate_tokens text)) as [H|H].
    + right. split; [lia|]. exists (one_decimal (percent (estimate_tokens input - estimate_tokens text) (estimate_tokens input))). split; [|reflexivity].
      apply percent_spec; [lia|]. pose proof (estimate_bound input). lia.
    + left. split; [lia|reflexivity].
  - assert (H : finished a (match detect_mode a with MEncode => lit "Encoded" | MDecode => lit "Decoded" end) (done_said a)).
    { unfold finished, done_said. destruct (a_output a) as [p|] eqn:Eo; [|now left]. right. exists (format_input_label a), p. split; [reflexivity|].
      unfold format_input_label. destruct (is_stdin a) eqn:Es.
      - apply is_stdin_spec in Es. split; [reflexivity|]. split; [|unfold done_text, format_input_label; rewrite (proj2 (is_stdin_spec a) Es); reflexivity].
        intros q Hq Hn. destruct Es; congruence.
      - destruct (not_stdin _ Es) as (q & Eq & Hn). rewrite Eq. split; [intros K; apply is_stdin_spec in K; congruence|]. split; [congruence|].
        unfold done_text, format_input_label. rewrite Es, Eq. reflexivity. }
    destruct (detect_mode a) eqn:Em; [right; split; [now apply encodes_mode|exact H]|left; split; [now apply decodes_mode|exact H]].
Qed.
