(** C66: replacing a word in a text. *)
From Verif Require Import Chars Floats Json Shared Scanner Parser Decoders EventBuilder Expand DecodeApi Lex Spec DecProps SpecText SpecRead
  ReadLex ReadHead ReadLine ReadProof SpecError ErrProof SpecCut PropsUnread CutProof SpecEdit EditText EditProof.

Local Open Scope nat_scope.

Lemma place_sym x c c' y : place x c c' y -> place x c' c y.
Proof. unfold place. tauto. Qed.

(** The words of a line, below its indentation. *)
Lemma indent_before k t : forall x c y, word c -> (forall r, t <> cSPACE :: r) -> x ++ c ++ y = repeat cSPACE k ++ t ->
  exists X, x = repeat cSPACE k ++ X /\ t = X ++ c ++ y.
Proof.
  induction k as [|k IH]; intros x c y W N E; [exists x; auto|]. cbn [repeat app] in E. destruct x as [|h x].
  - exfalso. destruct W as (Wn & _ & T & _). destruct c as [|h c]; [congruence|]. cbn in E. injection E as -> _. specialize (T _ _ eq_refl). discriminate.
  - cbn in E. injection E as -> E. destruct (IH x c y W N E) as (X & -> & ->). exists X. auto.
Qed.
Lemma scans_swap strict size x c c' y B : word c -> word c' -> forall A n ls bs, scans strict size n (A ++ (x ++ c ++ y) :: B) ls bs ->
  exists lsA bsA k m d X lsB bsB, x = repeat cSPACE k ++ X /\ ls = lsA ++ TLine m d (X ++ c ++ y) :: lsB /\ bs = bsA ++ bsB /\
    scans strict size n A lsA bsA /\ scans strict size n (A ++ (x ++ c' ++ y) :: B) (lsA ++ TLine m d (X ++ c' ++ y) :: lsB) bs.
Proof.
  intros W W'. induction A as [|a A IH]; intros n ls bs H; cbn [app] in H.
  - inversion H as [|? ? ? ? ? Bl|? k t d ? ls0 bs0 Nb Ns Dp Nt Sc]; subst.
    + exfalso. eapply not_blank; [exact W|exact Bl].
    + match goal with E : repeat _ _ ++ _ = _ |- _ => rename E into Ek end.
      symmetry in Ek. destruct (indent_before k t x c y W Ns Ek) as (X & -> & ->).
      exists [], [], k, n, d, X, ls0, bs. do 3 (split; [reflexivity|]). split; [constructor|]. cbn [app]. rewrite <- app_assoc. constructor; auto.
      * now apply not_blank.
      * intros r E. destruct X as [|h X]; [|cbn in E; injection E as -> _; eapply Ns; reflexivity]. destruct W' as (Wn & _ & T & _).
        destruct c' as [|h u]; [congruence|]. cbn in E. injection E as -> _. specialize (T _ _ eq_refl). discriminate.
      * intros St. apply (first_swap c c' W'); [cbn; tauto|]. now apply Nt.
  - inversion H as [|? ? ? ls0 bs0 Bl Sc|? k t d ? ls0 bs0 Nb Ns Dp Nt Sc]; subst.
    + destruct (IH _ _ _ Sc) as (lsA & bsA & k & m & d & X & lsB & bsB & -> & -> & -> & Sa & Sb).
      exists lsA, (n :: bsA), k, m, d, X, lsB, bsB. do 3 (split; [reflexivity|]). split; [now constructor|]. cbn [app]. now constructor.
    + destruct (IH _ _ _ Sc) as (lsA & bsA & k' & m & d' & X & lsB & bsB & -> & -> & -> & Sa & Sb).
      exists (TLine n d t :: lsA), bsA, k', m, d', X, lsB, bsB. do 3 (split; [reflexivity|]). split; [now constructor|]. cbn [app]. now constructor.
Qed.
Lemma swapped_at X c c' y lsA n d lsB : swapped X c c' y n (lsA ++ TLine n d (X ++ c ++ y) :: lsB) (lsA ++ TLine n d (X ++ c' ++ y) :: lsB).
Proof. induction lsA; cbn [app]; constructor; auto. Qed.
Lemma swapped_inv X c c' y n ls ls' : swapped X c c' y n ls ls' -> exists a d b, ls = a ++ TLine n d (X ++ c ++ y) :: b /\ ls' = a ++ TLine n d (X ++ c' ++ y) :: b.
Proof.
  induction 1 as [d ls|l a b _ (a' & d & b' & -> & ->)]; [exists [], d, ls; auto|exists (l :: a'), d, b'; auto].
Qed.

Lemma leaf_value (R R' : prim -> prim -> Prop) v w : (forall p q, R p q -> R' p q) -> one_leaf R v w -> one_value R' (tree_json v) (tree_json w).
Proof.
  intros HR. induction 1 as [p p' H|n a v w b _ IH|a k v w b _ IH]; cbn [tree_json].
  - constructor. auto.
  - rewrite !map_app. cbn [map]. now constructor.
  - rewrite !map_app. cbn [map fst snd]. now constructor.
Qed.
Lemma leaf_events (R : prim -> prim -> Prop) v w : one_leaf R v w -> exists a b p p', tree_events v = a ++ EvPrim p :: b /\ tree_events w = a ++ EvPrim p' :: b /\ R p p'.
Proof.
  induction 1 as [p p' H|n a v w b _ (a' & b' & p & p' & E1 & E2 & H)|a k v w b _ (a' & b' & p & p' & E1 & E2 & H)].
  - exists [], [], p, p'. auto.
  - cbn [tree_events]. rewrite !flat_map_app. cbn [flat_map]. rewrite E1, E2.
    exists (EvStartArray n :: flat_map tree_events a ++ a'), (b' ++ flat_map tree_events b ++ [EvEndArray]), p, p'.
    repeat (cbn [app]; rewrite <- ?app_assoc). auto.
  - cbn [tree_events]. rewrite !flat_map_app. cbn [flat_map snd fst]. rewrite E1, E2.
    set (f := fun m : str * bool * tree => EvKey (fst (fst m)) (snd (fst m)) :: tree_events (snd m)).
    exists (EvStartObject :: flat_map f a ++ EvKey (fst k) (snd k) :: a'), (b' ++ flat_map f b ++ [EvEndObject]), p, p'.
    repeat (cbn [app]; rewrite <- ?app_assoc). auto.
Qed.

(** A tree and the trees that replacing a word gives. *)
Lemma scans_root strict size A B x c c' y ls bs v : place x c c' y ->
  scans strict size 1 (A ++ (x ++ c ++ y) :: B) ls bs -> root parse_f64 strict bs ls v ->
  exists ls' v', scans strict size 1 (A ++ (x ++ c' ++ y) :: B) ls' bs /\ root parse_f64 strict bs ls' v' /\
    (one_leaf (rewritten parse_f64 x c c' y) v v' \/
     (v' = v /\ (strict = false \/ exists lsA bsA, scans strict size 1 A lsA bsA /\ root parse_f64 strict bsA lsA v))).
Proof.
  intros (W & W' & O & Hy & Hd) Sc R.
  destruct (scans_swap strict size x c c' y B W W' A 1 ls bs Sc) as (lsA & bsA & k & m & d & X & lsB & bsB & Ex & El & Eb & Sa & Sb).
  assert (OX : open X) by (eapply open_suffix; rewrite <- Ex; exact O).
  assert (HX : X = [] -> ~ dashed c /\ ~ dashed c').
  { intros ->. apply Hd. rewrite Ex, app_nil_r. apply Forall_forall. intros z Hz. apply repeat_spec in Hz as ->. reflexivity. }
  apply root_root_to in R as (rest & R). assert (S := swapped_at X c c' y lsA m d lsB). rewrite <- El in S.
  eexists. destruct (root_edit strict bs X c c' y W W' OX Hy HX m ls v rest R _ S) as [(rest' & Sr & R')|(v' & Ev & R')].
  - exists v. split; [exact Sb|]. split; [exact R'|]. right. split; [reflexivity|]. right. exists lsA, bsA. split; [exact Sa|].
    destruct (root_keep _ _ _ _ _ _ R) as (used & Eu & K). assert (Z : exists s, lsA = used ++ s /\ rest = s ++ TLine m d (X ++ c ++ y) :: lsB).
    { assert (L : length (TLine m d (X ++ c ++ y) :: lsB) <= length rest).
      { destruct (swapped_inv _ _ _ _ _ _ _ Sr) as (a & d' & b & Er & _). pose proof (scans_asc _ _ _ _ _ _ Sc) as As.
        destruct (Nat.le_gt_cases (length (TLine m d (X ++ c ++ y) :: lsB)) (length rest)) as [L|L]; [exact L|exfalso].
        assert (Q : exists z, lsB = z ++ rest).
        { rewrite El in Eu. symmetry in Eu. replace (lsA ++ TLine m d (X ++ c ++ y) :: lsB) with ((lsA ++ [TLine m d (X ++ c ++ y)]) ++ lsB) in Eu by now rewrite <- app_assoc.
          destruct (app_split_le _ _ _ _ Eu) as (z & Ez & _); [cbn in L; lia|]. eauto. }
        destruct Q as (z & Ez). rewrite El in As. apply asc_suffix in As. inversion As as [|? ? _ F]; subst. rewrite !Forall_app in F.
        destruct F as (_ & _ & F). inversion F as [|? ? F1]; subst. cbn in F1. lia. }
      rewrite El in Eu. destruct (app_split_le _ _ _ _ Eu L) as (s & -> & ->). eauto. }
    destruct Z as (s & -> & Er). eapply (K bsA s); [|exact Er]. rewrite Eb. apply incl_appl, incl_refl.
  - exists v'. split; [exact Sb|]. split; [exact R'|]. destruct Ev as [Ev|(St & ->)]; [left|right; auto].
    clear - Ev Ex. revert v' Ev. enough (H : forall p q, rewritten parse_f64 X c c' y p q -> rewritten parse_f64 x c c' y p q).
    { intros v' Ev. induction Ev; constructor; auto. }
    intros p q (x0 & x1 & y1 & y0 & -> & E & H). exists (repeat cSPACE k ++ x0), x1, y1, y0. rewrite Ex, app_assoc. auto.
Qed.

(** In a text that is accepted a word is replaced.  The new text is accepted, and exactly one
    primitive value differs: the one read from the token with the word in it.  There are two
    exceptions, both without effect: the line is not read at all, and the lines before it give the
    same value; or, in lenient mode, a cell is dropped. *)
Theorem C66_word_replaced :
  forall (before after : list str) (x c c' y : str) (indent : option nat) (strict : option bool)
         (expand : option expand_paths_mode) (v : json),
    expand <> Some EPSafe -> place x c c' y ->
    try_decode_from_lines (before ++ (x ++ c ++ y) :: after) (Some (DecOpts indent strict expand)) = Ok v ->
    exists v',
      try_decode_from_lines (before ++ (x ++ c' ++ y) :: after) (Some (DecOpts indent strict expand)) = Ok v' /\
      (one_value (rewritten parse_f64 x c c' y) v v' \/
       (v' = v /\ (unwrap_or strict true = false \/
                   try_decode_from_lines before (Some (DecOpts indent strict expand)) = Ok v))).
Proof.
  intros before after x c c' y indent strict expand v He Pl H.
  assert (Ee : rd_expand (resolve_decode_options (Some (DecOpts indent strict expand))) = EPOff) by (destruct expand as [[|]|]; cbn; congruence).
  destruct (lines_ok_inv _ _ _ Ee H) as (ls & bs & tr & Sc & Ro & ->).
  destruct (scans_root _ _ _ _ _ _ _ _ _ _ _ Pl Sc Ro) as (ls' & v' & Sc' & Ro' & C).
  exists (tree_json v'). split; [eapply lines_ok; eauto|]. destruct C as [C|(-> & C)]; [left|right; split; [reflexivity|]].
  - eapply leaf_value; [|exact C]. auto.
  - destruct C as [C|(lsA & bsA & Sa & Ra)]; [left; exact C|right]. eapply lines_ok; eauto.
Qed.
Print Assumptions C66_word_replaced.

(** A text is accepted or refused whatever the word is. *)
Theorem C66_accepted_alike :
  forall (before after : list str) (x c c' y : str) (indent : option nat) (strict : option bool)
         (expand : option expand_paths_mode),
    expand <> Some EPSafe -> place x c c' y ->
    ((exists v, try_decode_from_lines (before ++ (x ++ c ++ y) :: after) (Some (DecOpts indent strict expand)) = Ok v) <->
     (exists v, try_decode_from_lines (before ++ (x ++ c' ++ y) :: after) (Some (DecOpts indent strict expand)) = Ok v)).
Proof.
  intros before after x c c' y indent strict expand He Pl. split; intros (v & H).
  - destruct (C66_word_replaced _ _ _ _ _ _ _ _ _ _ He Pl H) as (v' & H' & _). eauto.
  - destruct (C66_word_replaced _ _ _ _ _ _ _ _ _ _ He (place_sym _ _ _ _ Pl) H) as (v' & H' & _). eauto.
Qed.
Print Assumptions C66_accepted_alike.

(** The events differ in one place at most. *)
Theorem C66_events :
  forall (before after : list str) (x c c' y : str) (indent : option nat) (strict : option bool) (evs : list event),
    place x c c' y ->
    decode_stream_sync (before ++ (x ++ c ++ y) :: after) (Some (DStreamOpts indent strict)) = Ok evs ->
    exists evs',
      decode_stream_sync (before ++ (x ++ c' ++ y) :: after) (Some (DStreamOpts indent strict)) = Ok evs' /\
      ((exists a b p p', evs = a ++ EvPrim p :: b /\ evs' = a ++ EvPrim p' :: b /\ rewritten parse_f64 x c c' y p p') \/
       (evs' = evs /\ (unwrap_or strict true = false \/
                       decode_stream_sync before (Some (DStreamOpts indent strict)) = Ok evs))).
Proof.
  intros before after x c c' y indent strict evs Pl H.
  apply (proj1 (stream_spec _ (unwrap_or strict true) (unwrap_or indent 2) evs)) in H as (ls & bs & tr & Sc & Ro & ->).
  destruct (scans_root _ _ _ _ _ _ _ _ _ _ _ Pl Sc Ro) as (ls' & v' & Sc' & Ro' & C).
  exists (tree_events v'). split; [apply (stream_spec _ (unwrap_or strict true) (unwrap_or indent 2)); eauto 7|].
  destruct C as [C|(-> & C)]; [left|right; split; [reflexivity|]].
  - apply leaf_events in C as (a & b & p & p' & E1 & E2 & Hr). exists a, b, p, p'. auto.
  - destruct C as [C|(lsA & bsA & Sa & Ra)]; [left; exact C|right]. apply (stream_spec _ (unwrap_or strict true) (unwrap_or indent 2)); eauto 7.
Qed.
Print Assumptions C66_events.

(** A cell of a table and a value in quotes; a number becomes a string. *)
Lemma word_check (c : str) : c <> [] -> forallb (fun k => negb (existsb (N.eqb k) marks)) c = true ->
  match c with h :: _ => is_ws h = false | [] => True end -> is_ws (last c cSPACE) = false -> word c.
Proof.
  intros N F H L. split; [exact N|]. split.
  - intros k Hk Hm. rewrite forallb_forall in F. specialize (F k Hk). apply Bool.negb_true_iff in F.
    assert (T : existsb (N.eqb k) marks = true) by (apply existsb_exists; exists k; split; [exact Hm|apply N.eqb_refl]). congruence.
  - split; intros h r ->; [exact H|]. now rewrite last_last in L.
Qed.
Ltac show_word := apply word_check; [discriminate|reflexivity|reflexivity|reflexivity].
Ltac show_place := split; [show_word|split; [show_word|split; [intros r E; apply (f_equal (@rev _)) in E; rewrite rev_app_distr in E; discriminate|split]]].
Example C66_cell_case :
  let before := [lit "users[2]{id,name}:"] in let after := [lit "  2,Bob"; lit "note: ""an old friend"""] in
  place (lit "  1,") (lit "Ann") (lit "42") [] /\
  exists v v', try_decode_from_lines (before ++ (lit "  1," ++ lit "Ann" ++ []) :: after) None = Ok v /\
    try_decode_from_lines (before ++ (lit "  1," ++ lit "42" ++ []) :: after) None = Ok v' /\ v <> v'.
Proof.
  split.
  - show_place; [intros k []|]. intros B. exfalso. inversion B as [|? ? _ B1]; inversion B1 as [|? ? _ B2]; inversion B2; discriminate.
  - eexists _, _. split; [vm_compute; reflexivity|]. split; [vm_compute; reflexivity|]. discriminate.
Qed.
Example C66_quoted_case :
  place (lit "note: ""an ") (lit "old") (lit "older") (lit " friend""") /\
  try_decode_from_lines [lit "note: ""an " ++ lit "older" ++ lit " friend"""] None = Ok (JObj [(lit "note", JPrim (PStr (lit "an older friend")))]).
Proof.
  split; [|vm_compute; reflexivity]. show_place.
  - intros k Hk Hb. assert (T : existsb (N.eqb k) brackets = true) by (apply existsb_exists; exists k; split; [exact Hb|apply N.eqb_refl]).
    revert T. cbn in Hk. repeat (destruct Hk as [<-|Hk]; [vm_compute; discriminate|]). destruct Hk.
  - intros B. exfalso. inversion B as [|? ? B1 _]. discriminate.
Qed.
(** With a colon and brackets in the new text the structure changes: the value becomes an array under
    another key. *)
Example C66_marks_matter :
  try_decode_from_lines [lit "note: a"] None = Ok (JObj [(lit "note", JPrim (PStr (lit "a")))]) /\
  try_decode_from_lines [lit "note: a[1]: b"] None = Ok (JObj [(lit "note: a", JArr [JPrim (PStr (lit "b"))])]).
Proof. split; vm_compute; reflexivity. Qed.
