(** UTF-8 encoding and decoding are inverse to each other. *)
From Verif Require Import Chars Utf8.

Lemma utf8_app s t : utf8 (s ++ t) = utf8 s ++ utf8 t.
Proof. apply flat_map_app. Qed.
Lemma utf8_cons c s : utf8 (c :: s) = utf8_char c ++ utf8 s.
Proof. reflexivity. Qed.

Lemma divmod64 c : c = c / 64 * 64 + c mod 64 /\ c mod 64 < 64.
Proof. split; [rewrite N.mul_comm; apply N.div_mod'|apply N.mod_lt; lia]. Qed.
Lemma div4096 c : c / 4096 = c / 64 / 64.
Proof. now rewrite N.div_div by lia. Qed.
Lemma div262144 c : c / 262144 = c / 64 / 64 / 64.
Proof. now rewrite !N.div_div by lia. Qed.

Lemma from_utf8_char c r : scalar c -> from_utf8 (utf8_char c ++ r) = put_char c (from_utf8 r).
Proof.
  intros [Hm Hs]. unfold utf8_char.
  destruct (divmod64 c) as [E1 L1]. destruct (divmod64 (c / 64)) as [E2 L2]. destruct (divmod64 (c / 64 / 64)) as [E3 L3].
  rewrite div4096, div262144. set (a := c mod 64) in *. set (b := c / 64 mod 64) in *. set (d := c / 64 / 64 mod 64) in *.
  set (q1 := c / 64) in *. set (q2 := q1 / 64) in *. set (q3 := q2 / 64) in *. clearbody a b d q1 q2 q3.
  destruct (N.ltb_spec c 128).
  { cbn [app from_utf8]. destruct (N.ltb_spec c 128); [reflexivity|lia]. }
  destruct (N.ltb_spec c 2048).
  { cbn [app from_utf8]. destruct (N.ltb_spec (192 + q1) 128); [lia|]. destruct (N.ltb_spec (192 + q1) 194); [lia|].
    destruct (N.ltb_spec (192 + q1) 224); [|lia]. unfold cont.
    destruct (N.leb_spec 128 (128 + a)), (N.leb_spec (128 + a) 191); try lia. cbn [andb].
    replace ((192 + q1 - 192) * 64 + (128 + a - 128)) with c by lia. reflexivity. }
  destruct (N.ltb_spec c 65536).
  { cbn [app from_utf8]. destruct (N.ltb_spec (224 + q2) 128); [lia|]. destruct (N.ltb_spec (224 + q2) 194); [lia|].
    destruct (N.ltb_spec (224 + q2) 224); [lia|]. destruct (N.ltb_spec (224 + q2) 240); [|lia]. cbv zeta.
    replace ((224 + q2 - 224) * 4096 + (128 + b - 128) * 64 + (128 + a - 128)) with c by lia.
    unfold cont, valid3.
    replace (_ && _ && _) with true by lia. reflexivity. }
  cbn [app from_utf8]. destruct (N.ltb_spec (240 + q3) 128); [lia|]. destruct (N.ltb_spec (240 + q3) 194); [lia|].
  destruct (N.ltb_spec (240 + q3) 224); [lia|]. destruct (N.ltb_spec (240 + q3) 240); [lia|].
  destruct (N.ltb_spec (240 + q3) 245); [|lia]. cbv zeta.
  replace ((240 + q3 - 240) * 262144 + (128 + d - 128) * 4096 + (128 + b - 128) * 64 + (128 + a - 128)) with c by lia.
  unfold cont, valid4. replace (_ && _ && _ && _) with true by lia. reflexivity.
Qed.
Theorem from_utf8_utf8 s : Forall scalar s -> from_utf8 (utf8 s) = Some s.
Proof.
  induction 1 as [|c s Hc _ IH]; [reflexivity|]. rewrite utf8_cons, from_utf8_char by exact Hc. now rewrite IH.
Qed.

Lemma put_char_some c r s : put_char c r = Some s -> exists t, s = c :: t /\ r = Some t.
Proof. destruct r as [t|]; [|discriminate]. intros H. injection H as <-. eauto. Qed.

Lemma enc_parts x y : y < 64 -> (x * 64 + y) / 64 = x /\ (x * 64 + y) mod 64 = y.
Proof. intros H. split; symmetry; [apply (N.div_unique _ _ _ y)|apply (N.mod_unique _ _ x)]; lia. Qed.

Theorem from_utf8_sound b : forall s, from_utf8 b = Some s -> Forall scalar s /\ utf8 s = b.
Proof.
  remember (length b) as n eqn:Hn. revert b Hn. induction n as [n IH] using lt_wf_ind. intros b -> s H.
  destruct b as [|b0 r]; [injection H as <-; split; [constructor|reflexivity]|]. cbn [from_utf8] in H.
  destruct (N.ltb_spec b0 128).
  { apply put_char_some in H as (t & -> & H). destruct (IH (length r) ltac:(cbn; lia) r eq_refl t H) as [Hs E]. split.
    - constructor; [split; lia|exact Hs].
    - rewrite utf8_cons, E. unfold utf8_char. destruct (N.ltb_spec b0 128); [reflexivity|lia]. }
  destruct (N.ltb_spec b0 194); [discriminate|]. destruct (N.ltb_spec b0 224).
  { destruct r as [|b1 r]; [discriminate|]. destruct (cont b1) eqn:C1; [|discriminate]. unfold cont in C1.
    apply put_char_some in H as (t & -> & H). destruct (IH (length r) ltac:(cbn; lia) r eq_refl t H) as [Hs E].
    set (c := (b0 - 192) * 64 + (b1 - 128)). destruct (enc_parts (b0 - 192) (b1 - 128) ltac:(lia)) as [D1 M1]. fold c in D1, M1.
    split.
    - constructor; [split; lia|exact Hs].
    - rewrite utf8_cons, E. unfold utf8_char. rewrite D1, M1.
      destruct (N.ltb_spec c 128); [lia|]. destruct (N.ltb_spec c 2048); [|lia]. cbn [app]. f_equal; [lia|]. f_equal. lia. }
  destruct (N.ltb_spec b0 240).
  { destruct r as [|b1 [|b2 r]]; try discriminate. cbv zeta in H.
    set (c := (b0 - 224) * 4096 + (b1 - 128) * 64 + (b2 - 128)) in *.
    destruct (cont b1 && cont b2 && valid3 c) eqn:C; [|discriminate]. unfold cont, valid3 in C.
    apply put_char_some in H as (t & -> & H). destruct (IH (length r) ltac:(cbn; lia) r eq_refl t H) as [Hs E].
    assert (Ec : c = ((b0 - 224) * 64 + (b1 - 128)) * 64 + (b2 - 128)) by (unfold c; lia).
    destruct (enc_parts ((b0 - 224) * 64 + (b1 - 128)) (b2 - 128) ltac:(lia)) as [D1 M1]. rewrite <- Ec in D1, M1.
    destruct (enc_parts (b0 - 224) (b1 - 128) ltac:(lia)) as [D2 M2].
    split.
    - constructor; [split; lia|exact Hs].
    - rewrite utf8_cons, E. unfold utf8_char. rewrite div4096, D1, M1, D2, M2.
      destruct (N.ltb_spec c 128); [lia|]. destruct (N.ltb_spec c 2048); [lia|]. destruct (N.ltb_spec c 65536); [|lia].
      cbn [app]. f_equal; [lia|]. f_equal; [lia|]. f_equal. lia. }
  destruct (N.ltb_spec b0 245); [|discriminate].
  destruct r as [|b1 [|b2 [|b3 r]]]; try discriminate. cbv zeta in H.
  set (c := (b0 - 240) * 262144 + (b1 - 128) * 4096 + (b2 - 128) * 64 + (b3 - 128)) in *.
  destruct (cont b1 && cont b2 && cont b3 && valid4 c) eqn:C; [|discriminate]. unfold cont, valid4 in C.
  apply put_char_some in H as (t & -> & H). destruct (IH (length r) ltac:(cbn; lia) r eq_refl t H) as [Hs E].
  assert (Ec : c = (((b0 - 240) * 64 + (b1 - 128)) * 64 + (b2 - 128)) * 64 + (b3 - 128)) by (unfold c; lia).
  destruct (enc_parts (((b0 - 240) * 64 + (b1 - 128)) * 64 + (b2 - 128)) (b3 - 128) ltac:(lia)) as [D1 M1]. rewrite <- Ec in D1, M1.
  destruct (enc_parts ((b0 - 240) * 64 + (b1 - 128)) (b2 - 128) ltac:(lia)) as [D2 M2].
  destruct (enc_parts (b0 - 240) (b1 - 128) ltac:(lia)) as [D3 M3].
  split.
  - constructor; [split; lia|exact Hs].
  - rewrite utf8_cons, E. unfold utf8_char. rewrite div262144, div4096, D1, M1, D2, M2, D3, M3.
    destruct (N.ltb_spec c 128); [lia|]. destruct (N.ltb_spec c 2048); [lia|]. destruct (N.ltb_spec c 65536); [lia|].
    cbn [app]. f_equal; [lia|]. f_equal; [lia|]. f_equal; [lia|]. f_equal. lia.
Qed.
Corollary from_utf8_spec b s : from_utf8 b = Some s <-> Forall scalar s /\ utf8 s = b.
Proof. split; [apply from_utf8_sound|]. intros [H <-]. now apply from_utf8_utf8. Qed.
