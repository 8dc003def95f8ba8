(** The messages tell the facts. *)
From Verif Require Import Chars Floats Json Shared DecodeApi Lex NumProof Spec SpecText TextProof ShortProof SpecMessage ErrText.

Local Open Scope nat_scope.

Lemma is_digit_digit c : is_digit c = true <-> digit c.
Proof. unfold is_digit, digit. rewrite Bool.andb_true_iff, !N.leb_le. tauto. Qed.
Lemma written_dec n : written n (dec_of_N n).
Proof.
  split; [|split].
  - split; [apply dec_of_N_nonempty|]. pose proof (dec_of_N_digits n) as H. eapply Forall_impl; [|exact H]. intros c. apply is_digit_digit.
  - apply dec_of_N_val.
  - apply no_lead.
Qed.
(** What follows the first occurrence of [w]. *)
Fixpoint starts (w s : str) : option str :=
  match w, s with
  | [], _ => Some s
  | c :: w, c' :: s => if (c =? c')%N then starts w s else None
  | _, _ => None
  end.
Fixpoint after (w s : str) : option str :=
  match starts w s with
  | Some r => Some r
  | None => match s with [] => None | _ :: s => after w s end
  end.
Lemma starts_app w : forall s r, starts w s = Some r -> s = w ++ r.
Proof.
  induction w as [|c w IH]; intros s r H; [now injection H|]. destruct s as [|c' s]; [discriminate|]. cbn in H.
  destruct (N.eqb_spec c c') as [->|]; [|discriminate]. now rewrite (IH _ _ H).
Qed.
Lemma after_app w s : forall r, after w s = Some r -> exists a, s = a ++ w ++ r.
Proof.
  induction s as [|c s IH]; intros r H; cbn [after] in H.
  - destruct (starts w []) eqn:E; [|discriminate]. injection H as <-. exists []. exact (starts_app _ _ _ E).
  - destruct (starts w (c :: s)) eqn:E.
    + injection H as <-. exists []. exact (starts_app _ _ _ E).
    + destruct (IH _ H) as (a & ->). now exists (c :: a).
Qed.
Lemma tells_in w fs a y b : after w a = Some y -> tells fs (y ++ b) -> tells (Says w :: fs) (a ++ b).
Proof. intros H T. destruct (after_app _ _ _ H) as (x & ->). rewrite <- !app_assoc. now apply te_words. Qed.
Lemma tells_here w fs b : tells fs b -> tells (Says w :: fs) (w ++ b).
Proof. apply (te_words w fs [] b). Qed.
Lemma tells_skip w fs a b : tells (Says w :: fs) b -> tells (Says w :: fs) (a ++ b).
Proof. intros H. inversion H; subst. rewrite app_assoc. now apply te_words. Qed.
Lemma tells_number n fs a b : match rev a with c :: _ => is_digit c = false | [] => True end -> halted b -> tells fs b ->
  tells (Number n :: fs) (a ++ dec_of_N n ++ b).
Proof.
  intros Ha Hb T. apply te_number; auto using written_dec. intros c r E. rewrite E in Ha. rewrite <- is_digit_digit. congruence.
Qed.
Lemma halted_app a b : match a with c :: _ => is_digit c = false | [] => False end -> halted (a ++ b).
Proof. intros H c r E. destruct a as [|x a]; [contradiction|]. injection E as -> _. rewrite <- is_digit_digit. congruence. Qed.
Lemma halted_nil : halted []. Proof. intros c r [=]. Qed.
Lemma tells_all fs s : tells fs (s ++ []) -> tells fs s. Proof. now rewrite app_nil_r. Qed.

Ltac tell :=
  repeat first
    [ apply te_end
    | apply tells_here
    | eapply tells_in; [vm_compute; reflexivity|]
    | apply tells_number; [exact I || reflexivity|first [apply halted_nil|apply halted_app; reflexivity]|]
    | apply tells_skip ].
Lemma some_inj {A} (x y : A) : Some x = Some y -> x = y. Proof. congruence. Qed.
Lemma message_tells e m : message e = Some m -> tells (facts e) m.
Proof.
  unfold message. destruct (raised e) as [t|] eqn:R; cbn [option_map]; [|discriminate]. intros H. apply some_inj in H. subst m. apply tells_all.
  destruct e as [ | | | |[c|]| | | |n|n|n k|n s k|[| | |] x a|n|n|[| | |] n| | |[| | | |]|[| | | |]|[| | | |]| | | |[key k|key l r]| |[| | | |]| ];
    cbn [raised] in R; try discriminate; apply some_inj in R; subst t; cbn [display facts];
    unfold line_number, nat_num, num, tabs_not_allowed, invalid_indentation, unexpected_event, mismatched_end; cbn [display counted_name context_name];
    unfold nat_num, num; repeat rewrite <- app_assoc.
  all: try solve [tell].
  - refine (te_words (lit "Invalid escape") [Says [cBSLASH; c]] [] (lit " sequence: \" ++ [c] ++ []) _). exact (te_words [cBSLASH; c] [] (lit " sequence: ") [] (te_end _)).
  - eapply tells_in; [vm_compute; reflexivity|]. apply tells_number; [reflexivity|apply halted_app; reflexivity|].
    eapply tells_in; [vm_compute; reflexivity|]. exact (tells_number 100000000 [] (lit " allowed (") (lit ")") eq_refl (halted_app (lit ")") [] eq_refl) (te_end _)).
  - apply tells_number; [reflexivity|apply halted_app; reflexivity|]. apply tells_skip. eapply tells_in; [vm_compute; reflexivity|].
    refine (tells_number 0 _ [] (lit ", but found " ++ dec_of_N (N.of_nat k) ++ lit " spaces" ++ []) I (halted_app (lit ", but found ") _ eq_refl) _). tell.
  - eapply tells_in; [vm_compute; reflexivity|]. exact (tells_number 256 [] (lit " of ") [] eq_refl halted_nil (te_end _)).
Qed.

(** The last words have to occur. *)
Lemma starts_some w r : starts w (w ++ r) = Some r.
Proof. induction w as [|c w IH]; [reflexivity|]. cbn. now rewrite N.eqb_refl. Qed.
Lemma after_some w a r : after w (a ++ w ++ r) <> None.
Proof.
  induction a as [|c a IH]; cbn [app].
  - assert (H : starts w (w ++ r) = Some r) by apply starts_some. destruct (w ++ r) as [|c s]; cbn [after]; rewrite H; discriminate.
  - cbn [after]. destruct (starts w (c :: a ++ w ++ r)); [discriminate|exact IH].
Qed.
Lemma tells_occurs fs s : tells fs s -> forall w, In (Says w) fs -> exists a b, s = a ++ w ++ b.
Proof.
  induction 1 as [s|w fs a b T IH|n ds fs a b W Ha Hb T IH]; intros u I.
  - contradiction.
  - destruct I as [[= ->]|I]; [eauto|]. destruct (IH u I) as (x & y & ->). exists (a ++ w ++ x), y. now rewrite <- !app_assoc.
  - destruct I as [[=]|I]. destruct (IH u I) as (x & y & ->). exists (a ++ ds ++ x), y. now rewrite <- !app_assoc.
Qed.
