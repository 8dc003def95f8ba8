(** C66: replacing a key in a text. *)
From Verif Require Import Chars Floats Json Shared Scanner Parser Decoders EventBuilder Expand DecodeApi Lex Spec DecProps SpecText SpecRead
  ReadLex ReadHead ReadLine ReadProof SpecError ErrProof SpecCut PropsUnread CutProof SpecEdit EditText EditProof PropsEdit SpecKeyEdit KeyEditProof.

Local Open Scope nat_scope.

Lemma key_place_sym x c c' y : key_place x c c' y -> key_place x c' c y.
Proof. intros (W & W' & B & A). repeat (split; [assumption|]). split; [|exact A]. destruct B; constructor; auto. Qed.
Lemma scans_text strict size : forall L n ls bs, scans strict size n L ls bs -> forall m d t, In (TLine m d t) ls -> forall r, t <> cSPACE :: r.
Proof.
  induction 1 as [|? ? ? ? ? Bl Sc IH|? k t d ? ls0 bs0 Nb Ns Dp Nt Sc IH]; intros m d0 t0 I; [destruct I|eauto|].
  destruct I as [I|I]; [injection I as <- <- <-; exact Ns|eauto].
Qed.
Lemma spaces_start k t : (forall r, t <> cSPACE :: r) -> forall j X z, repeat cSPACE j ++ z = repeat cSPACE k ++ X -> (forall r, z <> cSPACE :: r) ->
  (forall r, X ++ t <> cSPACE :: r) -> z = X.
Proof.
  intros Ht. induction k as [|k IH]; intros j X z E Hz HX.
  - cbn in E. subst X. destruct j as [|j]; [reflexivity|]. exfalso. cbn in HX. now apply (HX ((repeat cSPACE j ++ z) ++ t)).
  - destruct j as [|j]; cbn [repeat app] in E; [exfalso; eapply Hz; exact E|]. injection E as E. eauto.
Qed.

(** A tree and the trees that replacing a key gives. *)
Lemma scans_root_key strict size A B x c c' y ls bs v : key_place x c c' y ->
  scans strict size 1 (A ++ (x ++ c ++ y) :: B) ls bs -> root parse_f64 strict bs ls v ->
  exists ls' v', scans strict size 1 (A ++ (x ++ c' ++ y) :: B) ls' bs /\ root parse_f64 strict bs ls' v' /\
    (one_key (renames c c') v v' \/ one_leaf (rewritten parse_f64 x c c' y) v v' \/
     (v' = v /\ (strict = false \/ exists lsA bsA, scans strict size 1 A lsA bsA /\ root parse_f64 strict bsA lsA v))).
Proof.
  intros (W & W' & Bk & Hy) Sc R.
  destruct (scans_swap strict size x c c' y B W W' A 1 ls bs Sc) as (lsA & bsA & k & m & d & X & lsB & bsB & Ex & El & Eb & Sa & Sb).
  assert (HX : (X = [] /\ ~ dashed c /\ ~ dashed c') \/ X = [cMINUS; cSPACE]).
  { assert (Ns : forall r, X ++ c ++ y <> cSPACE :: r) by (eapply (scans_text _ _ _ _ _ _ Sc m d); rewrite El, in_app_iff; right; now left).
    assert (Nc : forall r, c ++ y <> cSPACE :: r).
    { intros r E. destruct W as (Wn & _ & T & _). destruct c as [|h u]; [congruence|]. injection E as -> _. specialize (T _ _ eq_refl). discriminate. }
    destruct Bk as [j N N'|j].
    - left. split; [|auto]. symmetry. apply (spaces_start k (c ++ y) Nc j X []); [now rewrite app_nil_r|discriminate|exact Ns].
    - right. symmetry. apply (spaces_start k (c ++ y) Nc j X [cMINUS; cSPACE]); [exact Ex|discriminate|exact Ns]. }
  apply root_root_to in R as (rest & R). assert (S := swapped_at X c c' y lsA m d lsB). rewrite <- El in S.
  eexists. destruct (root_edit strict bs X c c' y W W' HX Hy m ls v rest R _ S) as [(rest' & Sr & R')|(v' & Ev & R')].
  - exists v. split; [exact Sb|]. split; [exact R'|]. right. right. split; [reflexivity|]. right. exists lsA, bsA. split; [exact Sa|].
    destruct (root_keep _ _ _ _ _ _ R) as (used & Eu & K). assert (Z : exists s, lsA = used ++ s /\ rest = s ++ TLine m d (X ++ c ++ y) :: lsB).
    { assert (L : length (TLine m d (X ++ c ++ y) :: lsB) <= length rest).
      { destruct (swapped_inv _ _ _ _ _ _ _ Sr) as (a & d' & b & Er & _). pose proof (scans_asc _ _ _ _ _ _ Sc) as As.
        destruct (Nat.le_gt_cases (length (TLine m d (X ++ c ++ y) :: lsB)) (length rest)) as [L|L]; [exact L|exfalso].
        assert (Q : exists z, lsB = z ++ rest).
        { rewrite El in Eu. symmetry in Eu. replace (lsA ++ TLine m d (X ++ c ++ y) :: lsB) with ((lsA ++ [TLine m d (X ++ c ++ y)]) ++ lsB) in Eu by now rewrite <- app_assoc.
          destruct (app_split_le _ _ _ _ Eu) as (z & Ez & _); [cbn in L; lia|]. eauto. }
        destruct Q as (z & Ez). rewrite El in As. apply asc_suffix in As. inversion As as [|? ? _ F]; subst. rewrite !Forall_app in F.
        destruct F as (_ & _ & F). inversion F as [|? ? F1]; subst. cbn in F1. lia. }
      rewrite El in Eu. destruct (app_split_le _ _ _ _ Eu L) as (s & -> & ->). eauto. }
    destruct Z as (s & -> & Er). eapply (K bsA s); [|exact Er]. rewrite Eb. apply incl_appl, incl_refl.
  - exists v'. split; [exact Sb|]. split; [exact R'|]. destruct Ev as [Ev|[Ev|(St & ->)]]; [right; left|now left|right; right; auto].
    clear - Ev Ex. revert v' Ev. enough (H : forall p q, rewritten parse_f64 X c c' y p q -> rewritten parse_f64 x c c' y p q).
    { intros v' Ev. induction Ev; constructor; auto. }
    intros p q (x0 & x1 & y1 & y0 & -> & E & H). exists (repeat cSPACE k ++ x0), x1, y1, y0. rewrite Ex, app_assoc. auto.
Qed.
Lemma key_name (R : str -> str -> Prop) v w : one_key R v w -> one_name R (tree_json v) (tree_json w).
Proof.
  induction 1 as [a k k' q v b H|n a v w b _ IH|a k v w b _ IH]; cbn [tree_json]; rewrite !map_app; cbn [map fst snd]; now constructor.
Qed.
Lemma key_events (R : str -> str -> Prop) v w : one_key R v w ->
  exists a b k k' q, tree_events v = a ++ EvKey k q :: b /\ tree_events w = a ++ EvKey k' q :: b /\ R k k'.
Proof.
  induction 1 as [a k k' q v b H|n a v w b _ (a' & b' & p & p' & q & E1 & E2 & H)|a k v w b _ (a' & b' & p & p' & q & E1 & E2 & H)].
  - cbn [tree_events]. rewrite !flat_map_app. cbn [flat_map snd fst].
    set (f := fun m : str * bool * tree => EvKey (fst (fst m)) (snd (fst m)) :: tree_events (snd m)).
    exists (EvStartObject :: flat_map f a), (tree_events v ++ flat_map f b ++ [EvEndObject]), k, k', q.
    repeat (cbn [app]; rewrite <- ?app_assoc). auto.
  - cbn [tree_events]. rewrite !flat_map_app. cbn [flat_map]. rewrite E1, E2.
    exists (EvStartArray n :: flat_map tree_events a ++ a'), (b' ++ flat_map tree_events b ++ [EvEndArray]), p, p', q.
    repeat (cbn [app]; rewrite <- ?app_assoc). auto.
  - cbn [tree_events]. rewrite !flat_map_app. cbn [flat_map snd fst]. rewrite E1, E2.
    set (f := fun m : str * bool * tree => EvKey (fst (fst m)) (snd (fst m)) :: tree_events (snd m)).
    exists (EvStartObject :: flat_map f a ++ EvKey (fst k) (snd k) :: a'), (b' ++ flat_map f b ++ [EvEndObject]), p, p', q.
    repeat (cbn [app]; rewrite <- ?app_assoc). auto.
Qed.

(** In a text that is accepted the key of a line is replaced.  The new text is accepted, and exactly
    one name differs.  The line may also be a row of a table, or an item that is a primitive (its colon
    inside quotes): then one value differs; or not be read at all, and then the lines before it give
    the same value; in lenient mode a cell may be dropped. *)
Theorem C66_key_replaced :
  forall (before after : list str) (x c c' y : str) (indent : option nat) (strict : option bool)
         (expand : option expand_paths_mode) (v : json),
    expand <> Some EPSafe -> key_place x c c' y ->
    try_decode_from_lines (before ++ (x ++ c ++ y) :: after) (Some (DecOpts indent strict expand)) = Ok v ->
    exists v',
      try_decode_from_lines (before ++ (x ++ c' ++ y) :: after) (Some (DecOpts indent strict expand)) = Ok v' /\
      (one_name (renames c c') v v' \/ one_value (rewritten parse_f64 x c c' y) v v' \/
       (v' = v /\ (unwrap_or strict true = false \/
                   try_decode_from_lines before (Some (DecOpts indent strict expand)) = Ok v))).
Proof.
  intros before after x c c' y indent strict expand v He Pl H.
  assert (Ee : rd_expand (resolve_decode_options (Some (DecOpts indent strict expand))) = EPOff) by (destruct expand as [[|]|]; cbn; congruence).
  destruct (lines_ok_inv _ _ _ Ee H) as (ls & bs & tr & Sc & Ro & ->).
  destruct (scans_root_key _ _ _ _ _ _ _ _ _ _ _ Pl Sc Ro) as (ls' & v' & Sc' & Ro' & C).
  exists (tree_json v'). split; [eapply lines_ok; eauto|]. destruct C as [C|[C|(-> & C)]]; [left|right; left|right; right; split; [reflexivity|]].
  - now apply key_name.
  - eapply leaf_value; [|exact C]. auto.
  - destruct C as [C|(lsA & bsA & Sa & Ra)]; [left; exact C|right]. eapply lines_ok; eauto.
Qed.
Print Assumptions C66_key_replaced.

(** A text is accepted or refused whatever the key is. *)
Theorem C66_key_accepted_alike :
  forall (before after : list str) (x c c' y : str) (indent : option nat) (strict : option bool)
         (expand : option expand_paths_mode),
    expand <> Some EPSafe -> key_place x c c' y ->
    ((exists v, try_decode_from_lines (before ++ (x ++ c ++ y) :: after) (Some (DecOpts indent strict expand)) = Ok v) <->
     (exists v, try_decode_from_lines (before ++ (x ++ c' ++ y) :: after) (Some (DecOpts indent strict expand)) = Ok v)).
Proof.
  intros before after x c c' y indent strict expand He Pl. split; intros (v & H).
  - destruct (C66_key_replaced _ _ _ _ _ _ _ _ _ _ He Pl H) as (v' & H' & _). eauto.
  - destruct (C66_key_replaced _ _ _ _ _ _ _ _ _ _ He (key_place_sym _ _ _ _ Pl) H) as (v' & H' & _). eauto.
Qed.
Print Assumptions C66_key_accepted_alike.

(** The events differ in one place at most. *)
Theorem C66_key_events :
  forall (before after : list str) (x c c' y : str) (indent : option nat) (strict : option bool) (evs : list event),
    key_place x c c' y ->
    decode_stream_sync (before ++ (x ++ c ++ y) :: after) (Some (DStreamOpts indent strict)) = Ok evs ->
    exists evs',
      decode_stream_sync (before ++ (x ++ c' ++ y) :: after) (Some (DStreamOpts indent strict)) = Ok evs' /\
      ((exists a b k k' q, evs = a ++ EvKey k q :: b /\ evs' = a ++ EvKey k' q :: b /\ renames c c' k k') \/
       (exists a b p p', evs = a ++ EvPrim p :: b /\ evs' = a ++ EvPrim p' :: b /\ rewritten parse_f64 x c c' y p p') \/
       (evs' = evs /\ (unwrap_or strict true = false \/
                       decode_stream_sync before (Some (DStreamOpts indent strict)) = Ok evs))).
Proof.
  intros before after x c c' y indent strict evs Pl H.
  apply (proj1 (stream_spec _ (unwrap_or strict true) (unwrap_or indent 2) evs)) in H as (ls & bs & tr & Sc & Ro & ->).
  destruct (scans_root_key _ _ _ _ _ _ _ _ _ _ _ Pl Sc Ro) as (ls' & v' & Sc' & Ro' & C).
  exists (tree_events v'). split; [apply (stream_spec _ (unwrap_or strict true) (unwrap_or indent 2)); eauto 7|].
  destruct C as [C|[C|(-> & C)]]; [left|right; left|right; right; split; [reflexivity|]].
  - apply key_events in C as (a & b & k & k' & q & E1 & E2 & Hr). exists a, b, k, k', q. auto.
  - apply leaf_events in C as (a & b & p & p' & E1 & E2 & Hr). exists a, b, p, p'. auto.
  - destruct C as [C|(lsA & bsA & Sa & Ra)]; [left; exact C|right]. apply (stream_spec _ (unwrap_or strict true) (unwrap_or indent 2)); eauto 7.
Qed.
Print Assumptions C66_key_events.

Ltac show_key_word := apply word_check; [discriminate|reflexivity|reflexivity|reflexivity].
Ltac not_dashed := intros [E|(r & E)]; discriminate.
(** The key of a member, and the key of an array that starts an item. *)
Example C66_key_case :
  key_place (lit "  ") (lit "id") (lit "first name") (lit ": seven") /\
  try_decode_from_lines [lit "user:"; lit "  " ++ lit "id" ++ lit ": seven"; lit "ok: true"] None =
    Ok (JObj [(lit "user", JObj [(lit "id", JPrim (PStr (lit "seven")))]); (lit "ok", JPrim (PBool true))]) /\
  try_decode_from_lines [lit "user:"; lit "  " ++ lit "first name" ++ lit ": seven"; lit "ok: true"] None =
    Ok (JObj [(lit "user", JObj [(lit "first name", JPrim (PStr (lit "seven")))]); (lit "ok", JPrim (PBool true))]).
Proof.
  split; [|split; vm_compute; reflexivity]. split; [show_key_word|]. split; [show_key_word|]. split.
  - apply (bk_indent _ _ 2); not_dashed.
  - apply ak_colon. cbn. intuition discriminate.
Qed.
Example C66_key_item_case :
  key_place (lit "  - ") (lit "tags") (lit "-x") (lit "[2]: a,b") /\
  try_decode_from_lines [lit "items[1]:"; lit "  - " ++ lit "-x" ++ lit "[2]: a,b"] None =
    Ok (JObj [(lit "items", JArr [JObj [(lit "-x", JArr [JPrim (PStr (lit "a")); JPrim (PStr (lit "b"))])]])]).
Proof.
  split; [|vm_compute; reflexivity]. split; [show_key_word|]. split; [show_key_word|]. split; [apply (bk_item _ _ 2)|].
  eapply (ak_array (lit "2]: a,b") (HeadLine None 2 cCOMMA None) (lit " a,b")).
  apply (ih_intro _ [] (lit "2") None (lit " a,b") None 2%N cCOMMA None).
  - exists (lit "2]: a,b"), (lit ": a,b"). split; [|split].
    + apply he_bare; [|split; [reflexivity|intros []]]. intros (w & r & E & B). destruct w as [|h w]; [discriminate|]. injection E as <- _. inversion B; discriminate.
    + split; [reflexivity|]. cbn. intuition discriminate.
    + apply (tp_plain _ []); [split; [reflexivity|intros []]|left; intros []].
  - apply fk_none. apply Forall_nil.
  - apply (fl_intro [] (lit "2") [] cCOMMA); [now left|split; [discriminate|repeat constructor; cbn; try discriminate; try lia]|reflexivity|left; auto].
  - discriminate.
  - exact I.
Qed.
(** As a row of a table the same line gives a cell. *)
Example C66_key_in_row :
  key_place (lit "  ") (lit "a") (lit "5") (lit ": x") /\
  try_decode_from_lines [lit "t[1]{k}:"; lit "  " ++ lit "a" ++ lit ": x"] None = Ok (JObj [(lit "t", JArr [JObj [(lit "k", JPrim (PStr (lit "a: x")))]])]) /\
  try_decode_from_lines [lit "t[1]{k}:"; lit "  " ++ lit "5" ++ lit ": x"] None = Ok (JObj [(lit "t", JArr [JObj [(lit "k", JPrim (PStr (lit "5: x")))]])]).
Proof.
  split; [|split; vm_compute; reflexivity]. split; [show_key_word|]. split; [show_key_word|]. split.
  - apply (bk_indent _ _ 2); not_dashed.
  - apply ak_colon. cbn. intuition discriminate.
Qed.
(** With a '[' in the rest of the line the key reaches further. *)
Example C66_key_needed :
  try_decode_from_lines [lit "a: x[1]: b"] None = Ok (JObj [(lit "a: x", JArr [JPrim (PStr (lit "b"))])]).
Proof. vm_compute. reflexivity. Qed.
