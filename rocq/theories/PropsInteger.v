(** C45: the integers of the JSON library. *)
From Verif Require Import Chars Floats Json NumProof JsonText SpecJson JsonNumProof JsonGrammar PropsJson Serde.

Lemma span_all s : all_digits s -> span_digits s = (s, []).
Proof. unfold all_digits. induction 1 as [|c s H _ IH]; cbn [span_digits]; [reflexivity|]. now rewrite H, IH. Qed.
Lemma dec_int n : int_part (dec_of_N n) = true.
Proof.
  destruct (dec_of_N_spec n) as (_ & _ & c & r & E & H0 & H1). rewrite E in *. cbn [int_part]. destruct (N.eq_dec n 0) as [->|N].
  - specialize (H0 eq_refl). injection H0 as -> ->. reflexivity.
  - apply orb_true_iff. left. apply negb_true_iff, N.eqb_neq. now apply H1.
Qed.
Lemma first_digit n : exists c r, dec_of_N n = c :: r /\ is_digit c = true.
Proof.
  destruct (dec_of_N_spec n) as (D & _ & c & r & E & _). exists c, r. split; [exact E|]. rewrite E in D. now inversion D.
Qed.
Lemma digit_not c : is_digit c = true -> (c =? cMINUS) = false /\ (c =? cDOT) = false /\ (c =? cLE) = false /\ (c =? cUE) = false.
Proof. unfold is_digit. intros H. apply andb_true_iff in H as [A B]. apply N.leb_le in A, B. repeat split; apply N.eqb_neq; lia. Qed.
Lemma integral_digits s : all_digits s -> is_integral s = true.
Proof.
  unfold is_integral, all_digits. intros H. apply negb_true_iff. induction H as [|c s Hc _ IH]; [reflexivity|]. cbn [existsb].
  destruct (digit_not c Hc) as (_ & -> & -> & ->). exact IH.
Qed.
Lemma reads_numeral rf n k : json_numeral n = true -> serde_number rf n = Some k -> serde_from_str rf n = Some (SNum k).
Proof.
  intros J E. unfold serde_from_str. assert (R : read_json n = Some (TNum n)).
  { apply read_json_spec. exists [], n, []. rewrite app_nil_r. split; [reflexivity|]. split; [constructor|]. split; [now constructor|constructor]. }
  rewrite R. cbn [serde_of_tree]. now rewrite E.
Qed.

(** An integer printed by the JSON library is read back as the same integer. *)
Theorem C45_integers_read_back :
  forall (rf : str -> option f64) (st : num_style),
    (forall z, (-9223372036854775808 <= z < 0)%Z ->
       serde_from_str rf (serde_to_string st (SNum (SNeg z))) = Some (SNum (SNeg z))) /\
    (forall n, n <= 18446744073709551615 ->
       serde_from_str rf (serde_to_string st (SNum (SPos n))) = Some (SNum (SPos n))).
Proof.
  intros rf st. split.
  - intros z Hz. cbn [serde_to_string snum_text]. pose proof (dec_of_N_digits (Z.abs_N z)) as D. apply reads_numeral.
    + unfold json_numeral. change (cMINUS =? cMINUS) with true. cbv iota. rewrite (span_all _ D). now rewrite dec_int.
    + unfold serde_number. replace (is_integral _) with true.
      2: { symmetry. unfold is_integral. cbn [existsb]. change ((cMINUS =? cDOT) || (cMINUS =? cLE) || (cMINUS =? cUE)) with false. exact (integral_digits _ D). }
      change (cMINUS =? cMINUS) with true. cbv iota zeta. rewrite dec_of_N_val.
      destruct (N.eqb_spec (Z.abs_N z) 0) as [E|E]; [lia|]. destruct (N.leb_spec (Z.abs_N z) 9223372036854775808) as [L|L]; [|lia].
      do 2 f_equal. lia.
  - intros n Hn. cbn [serde_to_string snum_text]. pose proof (dec_of_N_digits n) as D. destruct (first_digit n) as (c & r & E & Hc).
    destruct (digit_not c Hc) as (M & _). apply reads_numeral.
    + unfold json_numeral. rewrite E at 1. rewrite M. cbv iota. rewrite (span_all _ D). now rewrite dec_int.
    + unfold serde_number. rewrite (integral_digits _ D). rewrite E at 1. rewrite M. cbv zeta. rewrite dec_of_N_val.
      destruct (N.leb_spec n 18446744073709551615) as [L|L]; [reflexivity|lia].
Qed.
Print Assumptions C45_integers_read_back.
(** At the ends of both ranges; one below the least integer is a number with a fraction. *)
Example C45_integers_case :
  serde_to_string usual_style (SNum (SNeg (-9223372036854775808))) = lit "-9223372036854775808" /\
  serde_from_str (fun _ => None) (lit "-9223372036854775808") = Some (SNum (SNeg (-9223372036854775808))) /\
  serde_from_str (fun _ => None) (lit "18446744073709551615") = Some (SNum (SPos 18446744073709551615)) /\
  serde_from_str (fun _ => None) (lit "-9223372036854775809") = Some (SNum (SFloat (f64_of_Z (-9223372036854775809)))).
Proof. repeat split; vm_compute; reflexivity. Qed.
