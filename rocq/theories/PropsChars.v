(** The encoding of characters the other theorems rely on is UTF-8, and white space is what Unicode
    calls so. *)
From Verif Require Import Chars Utf8 Utf8Proof SpecUtf8.

Lemma spelled_char_scalar c b : spelled_char c b -> scalar c.
Proof. destruct 1; split; lia. Qed.
Lemma quotient q x r d : d * q + r = x -> r < d -> x / d = q /\ x mod d = r.
Proof. intros H L. split; symmetry; [apply (N.div_unique _ _ _ r)|apply (N.mod_unique _ _ q)]; lia. Qed.
Lemma spelled_utf8_char c b : spelled_char c b -> utf8_char c = b.
Proof.
  destruct 1 as [c H|c x y H Hy E|c x y z H Hs Hy Hz E|c x y z u H Hy Hz Hu E]; unfold utf8_char.
  - destruct (N.ltb_spec c 128); [reflexivity|lia].
  - destruct (N.ltb_spec c 128); [lia|]. destruct (N.ltb_spec c 2048); [|lia].
    destruct (quotient x c y 64 ltac:(lia) Hy) as [-> ->]. reflexivity.
  - destruct (N.ltb_spec c 128); [lia|]. destruct (N.ltb_spec c 2048); [lia|]. destruct (N.ltb_spec c 65536); [|lia].
    destruct (quotient (64 * x + y) c z 64 ltac:(lia) Hz) as [E1 ->]. rewrite div4096, E1.
    destruct (quotient x (64 * x + y) y 64 ltac:(lia) Hy) as [-> ->]. reflexivity.
  - destruct (N.ltb_spec c 128); [lia|]. destruct (N.ltb_spec c 2048); [lia|]. destruct (N.ltb_spec c 65536); [lia|].
    destruct (quotient (4096 * x + 64 * y + z) c u 64 ltac:(lia) Hu) as [E1 ->]. rewrite div262144, div4096, E1.
    destruct (quotient (64 * x + y) (4096 * x + 64 * y + z) z 64 ltac:(lia) Hz) as [E2 ->]. rewrite E2.
    destruct (quotient x (64 * x + y) y 64 ltac:(lia) Hy) as [-> ->]. reflexivity.
Qed.
Lemma utf8_char_spelled c : scalar c -> spelled_char c (utf8_char c).
Proof.
  intros [Hm Hs]. unfold utf8_char.
  destruct (divmod64 c) as [E1 L1]. destruct (divmod64 (c / 64)) as [E2 L2]. destruct (divmod64 (c / 64 / 64)) as [E3 L3].
  rewrite div4096, div262144.
  destruct (N.ltb_spec c 128); [constructor; lia|]. destruct (N.ltb_spec c 2048); [constructor; lia|].
  destruct (N.ltb_spec c 65536); constructor; try lia; intros ?; apply Hs; lia.
Qed.

(** Texts and bytes correspond as RFC 3629 says, and bytes that correspond to no text are refused. *)
Theorem C39_utf8 :
  forall (s : str) (b : bytes),
    (from_utf8 b = Some s <-> spelled s b) /\ (Forall scalar s -> (utf8 s = b <-> spelled s b)).
Proof.
  assert (A : forall s b, spelled s b -> Forall scalar s /\ utf8 s = b).
  { induction 1 as [|c s b r Hc _ [IH1 IH2]]; [split; [constructor|reflexivity]|]. split.
    - constructor; [eapply spelled_char_scalar; eassumption|exact IH1].
    - now rewrite utf8_cons, IH2, (spelled_utf8_char _ _ Hc). }
  assert (B : forall s, Forall scalar s -> spelled s (utf8 s)).
  { induction 1 as [|c s Hc _ IH]; [constructor|]. rewrite utf8_cons. constructor; [now apply utf8_char_spelled|exact IH]. }
  intros s b. split; [split|intros Hs; split].
  - intros H. destruct (from_utf8_sound _ _ H) as [Hs <-]. now apply B.
  - intros H. destruct (A _ _ H) as [Hs <-]. now apply from_utf8_utf8.
  - intros <-. now apply B.
  - intros H. now apply A.
Qed.
(** What is trimmed from lines, keys and tokens, and makes a string need quotes. *)
Theorem C47_white_space : forall c, is_ws c = true <-> In c white_space.
Proof.
  intros c. unfold white_space, is_ws. cbn [In]. rewrite !Bool.orb_true_iff, !Bool.andb_true_iff, !N.leb_le, !N.eqb_eq. lia.
Qed.
Print Assumptions C39_utf8.
Print Assumptions C47_white_space.

(** The Euro sign and a musical clef; an overlong slash and a surrogate are refused. *)
Example C39_utf8_example :
  spelled [8364; 119070] [226; 130; 172; 240; 157; 132; 158] /\
  from_utf8 [192; 175] = None /\ from_utf8 [237; 160; 128] = None.
Proof. split; [|split; reflexivity]. apply (proj1 (C39_utf8 _ _)). reflexivity. Qed.
