(** C55: what a consumer of the asynchronous decoder stream sees, for every sequence of lines; and
    from it exactly when the stream ends (C33) and exactly when it agrees with the synchronous
    decoder (C32). *)
From Verif Require Import Chars Floats Json Shared Scanner Parser DecValidation Decoders EventBuilder Expand DecodeApi
  AsyncDecode Lex NumProof PrimProof Spec DecNums ParseProof DecRel DecCost DecProps DecRelax SpecText TextProof SpecRead SpecError SpecStream
  ReadLex ReadHead ReadLine ErrLex ReadProof ErrProof AsyncDecProof StreamProof Fixtures PropsAsyncDec.

Local Open Scope nat_scope.

(** ** C55 *)

(** Every poll answers what SpecStream.v says. *)
Theorem C55_every_poll :
  forall (lines : list str) (indent : option nat) (strict : option bool) (n : nat) (r : option (result event)),
    nth_poll n (adec_new lines (Some (DStreamOpts indent strict))) = Some r <->
    exists a f, answers parse_f64 (unwrap_or strict true) (unwrap_or indent 2) Before 1 lines a f /\ answer a f n = r.
Proof.
  intros lines indent strict n r. set (o := DStreamOpts indent strict). split.
  - intros H. destruct (answers_exist o lines Before 0) as (a & f & Ha). exists a, f. split; [exact Ha|].
    pose proof (stream_follows o _ _ _ _ _ Ha _ (new_follows o lines) n) as X. congruence.
  - intros (a & f & Ha & <-). exact (stream_follows o _ _ _ _ _ Ha _ (new_follows o lines) n).
Qed.
Print Assumptions C55_every_poll.

Lemma same_nth {A} (l : list A) : forall l', (forall n, nth_error l n = nth_error l' n) -> l = l'.
Proof.
  induction l as [|x l IH]; intros [|y l'] H; auto; try (specialize (H 0); discriminate). f_equal.
  - specialize (H 0). cbn in H. congruence.
  - apply IH. intros n. exact (H (S n)).
Qed.
Lemma answer_past a f n : length a <= n -> answer a f n = option_map Err f.
Proof. intros H. unfold answer. now rewrite (proj2 (nth_error_None _ _) H). Qed.
Lemma answers_same a f a' : (forall n, answer a f n = answer a' None n) -> f = None /\ a = a'.
Proof.
  intros H. assert (f = None).
  { specialize (H (length a + length a')). rewrite !answer_past in H by lia. destruct f; [discriminate|reflexivity]. }
  subst f. split; auto. apply same_nth. intros n. specialize (H n). unfold answer in H.
  destruct (nth_error a n), (nth_error a' n); cbn in H; congruence.
Qed.

Lemma polled_answers lines o evs : polled lines (Some o) evs <->
  answers parse_f64 (unwrap_or (dso_strict o) true) (unwrap_or (dso_indent o) 2) Before 1 lines (map Ok evs) None.
Proof.
  split.
  - intros H. destruct (answers_exist o lines Before 0) as (a & f & Ha).
    destruct (answers_same a f (map Ok evs)) as [-> ->]; [|exact Ha]. intros n.
    pose proof (stream_follows o _ _ _ _ _ Ha _ (new_follows o lines) n) as X. rewrite H in X. injection X as X. rewrite <- X.
    unfold answer. rewrite nth_error_map. now destruct (nth_error evs n).
  - intros H n. rewrite (stream_follows o _ _ _ _ _ H _ (new_follows o lines) n). unfold answer. rewrite nth_error_map. now destruct (nth_error evs n).
Qed.

(** One sees [evs] and then the end exactly when these are the answers. *)
Theorem C55_polled :
  forall (lines : list str) (indent : option nat) (strict : option bool) (evs : list event),
    polled lines (Some (DStreamOpts indent strict)) evs <->
    answers parse_f64 (unwrap_or strict true) (unwrap_or indent 2) Before 1 lines (map Ok evs) None.
Proof. intros lines indent strict evs. exact (polled_answers lines (DStreamOpts indent strict) evs). Qed.
Print Assumptions C55_polled.

(** A key without a value, and after it the rest as a document of its own: the object that was begun
    is never ended. *)
Definition seen_by (lines : list str) (n : nat) : list (option (option (result event))) :=
  map (fun k => nth_poll k (adec_new lines None)) (seq 0 n).
Example C55_unended :
  seen_by [lit "a: 1"; lit "b:"; lit "  c: 2"] 9 =
  map (fun e => Some (Some (Ok e))) [EvStartObject; EvKey (lit "a") false; EvPrim (num "1"); EvStartObject; EvKey (lit "b") false;
    EvStartObject; EvKey (lit "c") false; EvPrim (num "2"); EvEndObject].
Proof. vm_compute. reflexivity. Qed.
(** An error overtakes the events that were found before it. *)
Example C55_overtaken :
  seen_by [lit "a: ""x"; lit "b: 1"] 6 =
  [Some (Some (Err EUnterminatedString)); Some (Some (Ok EvStartObject)); Some (Some (Ok (EvKey (lit "a") false)));
   Some (Some (Ok (EvKey (lit "b") false))); Some (Some (Ok (EvPrim (num "1")))); Some (Some (Ok EvEndObject))].
Proof. vm_compute. reflexivity. Qed.

(** ** C33 *)

(** The stream ends exactly when no line is kept, or the kept lines are a document. *)
Theorem C33_ends_exactly :
  forall (lines : list str) (indent : option nat) (strict : option bool),
    (exists n0, forall n, n0 <= n -> nth_poll n (adec_new lines (Some (DStreamOpts indent strict))) = Some None) <->
    exists a, answers parse_f64 (unwrap_or strict true) (unwrap_or indent 2) Before 1 lines a None.
Proof.
  intros lines indent strict. set (o := DStreamOpts indent strict). split.
  - intros (n0 & H). destruct (answers_exist o lines Before 0) as (a & f & Ha).
    pose proof (stream_follows o _ _ _ _ _ Ha _ (new_follows o lines) (n0 + length a)) as X.
    rewrite H in X by lia. rewrite answer_past in X by lia. destruct f; [discriminate|]. exists a. exact Ha.
  - intros (a & Ha). exists (length a). intros n Hn. rewrite (stream_follows o _ _ _ _ _ Ha _ (new_follows o lines) n). now rewrite answer_past.
Qed.
Print Assumptions C33_ends_exactly.

(** ** C32 *)

(** Neither a list item, nor the header of an array, and its key has a value. *)
Definition simple_text (t : str) : Prop :=
  ~ hyphen t /\ ~ opens_array t /\ (forall h tail, is_header t h tail -> hl_key h = None) /\
  exists k q r, key_line t k q r /\ ~ blank r.
(** The lines of an object without nesting. *)
Definition simple_lines (ls : list tline) : Prop :=
  match ls with
  | [] => True
  | l :: rest => simple_text (tl_text l) /\ opens_object (tl_text l) /\
                 Forall (fun l => tl_depth l = 0 /\ simple_text (tl_text l)) rest
  end.

Lemma seen_line strict size n raw t : seen strict size n raw t -> exists k, raw = repeat cSPACE k ++ t /\ ~ blank t /\ (forall r, t <> cSPACE :: r).
Proof. intros (d & H). inversion H; subst. eauto. Qed.
Lemma seen_fun strict size n k t t' : seen strict size n (repeat cSPACE k ++ t) t' -> (forall r, t <> cSPACE :: r) -> t' = t.
Proof.
  intros H Hs. apply seen_line in H as (k' & E & _ & Hs'). assert (X : k' = k) by (rewrite <- (count_spaces_at k' t' Hs'), <- E; now apply count_spaces_at).
  subst k'. now apply app_inv_head in E.
Qed.
Lemma seen_not_blank strict size n raw t : seen strict size n raw t -> ~ blank raw.
Proof. intros H. apply seen_line in H as (k & -> & Hb & _). now rewrite blank_spaces. Qed.

Lemma map_ok_inj (l : list event) : forall l', map (@Ok event) l = map Ok l' -> l = l'.
Proof. induction l as [|x l IH]; intros [|y l'] H; try discriminate; auto. injection H as -> H. f_equal. auto. Qed.

Lemma kept_events double strict size kept n raws a f : answers double strict size (Keeping kept) n raws a f ->
  forall evs, a = map Ok evs -> f = None -> exists v, evs = tree_events v.
Proof.
  intros H. remember (Keeping kept) as ph eqn:Eph. revert kept Eph.
  induction H as [ph n raw raws a f Hb _ IH|ph n raw raws e a f Hr _ IH|n|n raw t raws a f Hs Ha _ IH|n raw t raws e a f Hs He _ IH
    |n raw t raws evs' fault a f Hs Hn Ho He _ IH|n raw t raws a f Hs Hn Ho He _ IH|n raw t raws p Hs Hn Ho Hp|n raw t raws e Hs Hn Ho Hp
    |n|n raw t raws a f Hs Ha _ IH|n raw t raws e a f Hs He _ IH|n raw t raws evs' fault a f Hs Hn He _ IH|n raw t raws a f Hs Hn He _ IH
    |kept n raw t raws a f Hs _ IH|kept n ls bs v Hs Hv|kept n e He]; intros kept' Eph evs Ea Ef; try discriminate; eauto.
  - destruct evs; discriminate.
  - apply map_ok_inj in Ea as <-. eauto.
Qed.

Lemma members_start ms e r : flat_map member_events ms ++ [EvEndObject] = e :: r -> (exists k q, e = EvKey k q) \/ e = EvEndObject.
Proof. destruct ms as [|[[k q] v] ms]; cbn; intros [= <- _]; eauto. Qed.
Lemma members_not_tree ms v : flat_map member_events ms ++ [EvEndObject] <> tree_events v.
Proof.
  intros E. destruct v as [p|n l|l]; cbn [tree_events] in E; apply members_start in E as [(k & q & E)|E]; discriminate.
Qed.
Lemma kept_not_members double strict size kept n raws ms : ~ answers double strict size (Keeping kept) n raws (map Ok (flat_map member_events ms ++ [EvEndObject])) None.
Proof. intros H. destruct (kept_events _ _ _ _ _ _ _ _ H _ eq_refl eq_refl) as (v & E). now apply members_not_tree in E. Qed.

Lemma gives_ok evs fault a l : gives evs fault ++ a = map Ok l -> fault = None /\ exists r, l = evs ++ r /\ a = map Ok r.
Proof.
  unfold gives. destruct fault as [e|]; [destruct l; discriminate|]. cbn [app]. intros H. split; auto.
  revert l H. induction evs as [|x evs IH]; intros l H; [exists l; auto|]. destruct l as [|y l]; cbn [map app] in H; [discriminate H|]. injection H as -> H.
  apply IH in H as (r & -> & ->). exists r. auto.
Qed.
Lemma plain_no_array t : plain t -> ~ opens_array t -> no_array t.
Proof. intros [H|(h & tail & H & _)] Hn; [now right|]. left. intros [B U]. apply Hn. repeat split; eauto. Qed.
Lemma no_array_not t : no_array t -> ~ opens_array t.
Proof. intros [H|H] (B & U & h & tail & Hh); [tauto|]. now apply (header_not_none _ _ _ Hh) in H. Qed.
Lemma plain_unkeyed t : plain t -> forall h tail, is_header t h tail -> hl_key h = None.
Proof.
  intros [H|(h' & tail' & H & Hk)] h tail Hh; [now apply (header_not_none _ _ _ Hh) in H|]. destruct (is_header_fun _ _ _ _ _ Hh H) as [-> _]. exact Hk.
Qed.
Lemma key_line_fun t k q r k' q' r' : key_line t k q r -> key_line t k' q' r' -> k = k' /\ q = q' /\ r = r'.
Proof. intros H H'. apply key_complete in H as (e & E & <-), H' as (e' & E' & <-). rewrite E in E'. injection E' as <- <- <-. auto. Qed.


Section Agree.
Variables (strict : bool) (size : nat) (bs : list nat).
Notation member := (SpecRead.member parse_f64 strict bs).
Notation members := (SpecRead.members parse_f64 strict bs).
Notation answers := (SpecStream.answers parse_f64 strict size).

(** A line that both decoders read as a key and a primitive. *)
Lemma both_read t ls k q p m ms ls1 r : no_array t -> entry parse_f64 t (Some ([EvKey k q; EvPrim p], None)) ->
  member 0 t ls m ls1 -> flat_map member_events (m :: ms) ++ [EvEndObject] = EvKey k q :: EvPrim p :: r ->
  simple_text t /\ ls1 = ls /\ r = flat_map member_events ms ++ [EvEndObject].
Proof.
  intros Hn He Hm E. inversion He as [| | | | |k0 q0 r0 p0 Hh Hk Hb Hp]; subst.
  inversion Hm as [d t0 ls0 h tail k1 q1 v rest Hhd Hkey Ha|d t0 ls0 k1 q1 r1 l ls' ms' rest Hpl Hk1 Hb1 El Hd Hms|d t0 ls0 k1 q1 r1 Hpl Hk1 Hb1 Hends|d t0 ls0 k1 q1 r1 p1 Hpl Hk1 Hb1 Hp1]; subst;
    cbn [flat_map member_events fst snd app] in E.
  - exfalso. inversion Ha; subst; cbn in E; discriminate.
  - exfalso. cbn in E. discriminate.
  - exfalso. cbn in E. discriminate.
  - cbn [tree_events app] in E. injection E as _ _ _ E. split; [|auto]. split; [exact Hh|]. split; [now apply no_array_not|].
    split; [now apply plain_unkeyed|eauto].
Qed.

Lemma entry_ok t evs : entry parse_f64 t (Some (evs, None)) -> exists k q p, evs = [EvKey k q; EvPrim p].
Proof. intros H. inversion H; subst; eauto. Qed.

Lemma within_simple n raws ls bs0 : SpecRead.scans strict size n raws ls bs0 -> forall ms rest,
  members false 0 ls ms rest -> answers Within n raws (map Ok (flat_map member_events ms ++ [EvEndObject])) None ->
  Forall (fun l => tl_depth l = 0 /\ simple_text (tl_text l)) ls.
Proof.
  induction 1 as [n|n raw raws ls bs0 Hb Hs IH|n k t d raws ls bs0 Ht Hsp Hd Htab Hs IH]; intros ms rest Hm Ha; [constructor| |];
    remember (map Ok (flat_map member_events ms ++ [EvEndObject])) as a eqn:Ea.
  - inversion Ha; subst; try (match goal with H : seen _ _ _ _ _ |- _ => now apply seen_not_blank in H end); eauto.
    destruct (flat_map member_events ms); discriminate.
  - inversion Ha as [ph n0 raw0 raws0 a0 f Hb0 _|ph n0 raw0 raws0 e a0 f Hr _| | | | | | | | 
      |n0 raw0 t0 raws0 a0 f Hs0 Ho H0|n0 raw0 t0 raws0 e a0 f Hs0 He _|n0 raw0 t0 raws0 evs fault a0 f Hs0 Hn He H0|n0 raw0 t0 raws0 a0 f Hs0 Hn He H0| | |]; subst.
    + now rewrite blank_spaces in Hb0.
    + destruct (flat_map member_events ms); discriminate.
    + now apply kept_not_members in H0.
    + destruct (flat_map member_events ms); discriminate.
    + apply seen_fun in Hs0 as ->; auto. match goal with H : gives _ _ ++ _ = _ |- _ => apply gives_ok in H as (-> & r & E & ->) end.
      destruct (entry_ok _ _ He) as (k0 & q0 & p0 & ->).
      inversion Hm as [stop d0 ls0 Hends|stop d0 l0 ls0 m ls1 ms0 rest0 Hd0 Hst Hme Hms]; subst; [discriminate|]. cbn [tl_text tl_depth] in *. subst.
      destruct (both_read _ _ _ _ _ _ _ _ _ Hn He Hme E) as (S1 & -> & ->). constructor; [auto|]. eapply IH; eauto.
    + now apply kept_not_members in H0.
Qed.

Lemma simple_within n raws ls bs0 : SpecRead.scans strict size n raws ls bs0 -> forall ms rest,
  Forall (fun l => tl_depth l = 0 /\ simple_text (tl_text l)) ls -> members false 0 ls ms rest ->
  answers Within n raws (map Ok (flat_map member_events ms ++ [EvEndObject])) None.
Proof.
  induction 1 as [n|n raw raws ls bs0 Hb Hs IH|n k t d raws ls bs0 Ht Hsp Hd Htab Hs IH]; intros ms rest HF Hm.
  - inversion Hm; subst. apply an_end.
  - apply an_blank; eauto.
  - inversion HF as [|? ? [H0 (Sh & Sa & Sk & k1 & q1 & r1 & Hk1 & Hb1)] HF']; subst. cbn [tl_text tl_depth] in *. subst d.
    inversion Hm as [stop d0 ls0 Hends|stop d0 l0 ls0 m ls1 ms0 rest0 Hd0 Hst Hme Hms]; subst.
    + exfalso. apply (Hends _ _ eq_refl). split; [reflexivity|]. intros [X _]. discriminate.
    + cbn [tl_text] in Hme. inversion Hme as [d t0 ls0 h tail k2 q2 v rest0 Hhd Hkey Ha|d t0 ls0 k2 q2 r2 l ls' ms' rest0 Hpl Hk2 Hb2 El Hd2 Hms'|d t0 ls0 k2 q2 r2 Hpl Hk2 Hb2 Hends|d t0 ls0 k2 q2 r2 p2 Hpl Hk2 Hb2 Hp2]; subst.
      * apply Sk in Hhd. congruence.
      * destruct (key_line_fun _ _ _ _ _ _ _ Hk1 Hk2) as (_ & _ & ->). contradiction.
      * destruct (key_line_fun _ _ _ _ _ _ _ Hk1 Hk2) as (_ & _ & ->). contradiction.
      * cbn [flat_map member_events fst snd tree_events app map].
        apply (an_later parse_f64 strict size n _ t raws [EvKey k2 q2; EvPrim p2] None).
        -- exists 0. constructor; auto. constructor.
        -- now apply plain_no_array.
        -- eapply en_member; eauto.
        -- eapply IH; eauto.
Qed.

Lemma before_simple n raws ls bs0 : SpecRead.scans strict size n raws ls bs0 -> forall v,
  root parse_f64 strict bs ls v -> hd_error (tree_events v) = Some EvStartObject ->
  answers Before n raws (map Ok (tree_events v)) None -> simple_lines ls.
Proof.
  induction 1 as [n|n raw raws ls bs0 Hb Hs IH|n k t d raws ls bs0 Ht Hsp Hd Htab Hs IH]; intros v Hr Hh Ha; [exact I| |];
    remember (map Ok (tree_events v)) as a eqn:Ea.
  - inversion Ha; subst; try (match goal with H : seen _ _ _ _ _ |- _ => now apply seen_not_blank in H end); eauto.
    destruct (tree_events v); discriminate.
  - inversion Hr as [|l0 ls0 h tail w rest Hbg Hu Hhd Har|l0 p0 Hna Hnc Hp|l0 ls0 m ls1 ms rest Hna Hor Hme Hms]; subst.
    + inversion Har; subst; discriminate.
    + discriminate.
    + rewrite tree_events_obj in *. cbn [tl_text] in *. remember (map Ok (EvStartObject :: flat_map member_events (m :: ms) ++ [EvEndObject])) as a eqn:Ea.
      inversion Ha as [ph n0 raw0 raws0 a0 f Hb0 _|ph n0 raw0 raws0 e a0 f Hr0 _| |n0 raw0 t0 raws0 a0 f Hs0 Ho H0|n0 raw0 t0 raws0 e a0 f Hs0 He _
        |n0 raw0 t0 raws0 evs fault a0 f Hs0 Hn Ho He H0|n0 raw0 t0 raws0 a0 f Hs0 Hn Ho He H0|n0 raw0 t0 raws0 p Hs0 Hn Ho Hp|n0 raw0 t0 raws0 e Hs0 Hn Ho Hp
        | | | | | | | |]; subst.
      * now rewrite blank_spaces in Hb0.
      * discriminate.
      * exfalso. apply seen_fun in Hs0 as ->; auto. now apply no_array_not in Hna.
      * discriminate.
      * apply seen_fun in Hs0 as ->; auto. match goal with H : gives _ _ ++ _ = _ |- _ => apply (gives_ok (EvStartObject :: evs)) in H as (-> & r & E & ->) end.
        destruct (entry_ok _ _ He) as (k0 & q0 & p0 & ->). apply (f_equal (@tl event)) in E. cbn [app tl] in E.
        destruct (both_read _ _ _ _ _ _ _ _ _ Hn He Hme E) as (S1 & -> & ->). cbn. split; [auto|]. split; [auto|]. eapply within_simple; eauto.
      * match goal with H : _ :: _ = _ |- _ => apply (f_equal (@tl _)) in H; cbn [map tl] in H; subst end. now apply kept_not_members in H0.
      * discriminate.
      * discriminate.
Qed.

Lemma simple_before n raws ls bs0 : SpecRead.scans strict size n raws ls bs0 -> forall v,
  simple_lines ls -> root parse_f64 strict bs ls v -> hd_error (tree_events v) = Some EvStartObject ->
  answers Before n raws (map Ok (tree_events v)) None.
Proof.
  induction 1 as [n|n raw raws ls bs0 Hb Hs IH|n k t d raws ls bs0 Ht Hsp Hd Htab Hs IH]; intros v HF Hr Hh.
  - inversion Hr; subst. apply an_nothing.
  - apply an_blank; eauto.
  - inversion Hr as [|l0 ls0 h tail w rest Hbg Hu Hhd Har|l0 p0 Hna Hnc Hp|l0 ls0 m ls1 ms rest Hna Hor Hme Hms]; subst.
    + inversion Har; subst; discriminate.
    + discriminate.
    + destruct HF as ((Sh & Sa & Sk & k1 & q1 & r1 & Hk1 & Hb1) & Hop & HF). cbn [tl_text] in *. rewrite tree_events_obj.
      inversion Hme as [d0 t0 ls0 h tail k2 q2 v rest0 Hhd Hkey Ha|d0 t0 ls0 k2 q2 r2 l ls' ms' rest0 Hpl Hk2 Hb2 El Hd2 Hms'|d0 t0 ls0 k2 q2 r2 Hpl Hk2 Hb2 Hends|d0 t0 ls0 k2 q2 r2 p2 Hpl Hk2 Hb2 Hp2]; subst.
      * apply Sk in Hhd. congruence.
      * destruct (key_line_fun _ _ _ _ _ _ _ Hk1 Hk2) as (_ & _ & ->). contradiction.
      * destruct (key_line_fun _ _ _ _ _ _ _ Hk1 Hk2) as (_ & _ & ->). contradiction.
      * cbn [flat_map member_events fst snd tree_events app map].
        apply (an_first parse_f64 strict size n _ t raws [EvKey k2 q2; EvPrim p2] None).
        -- exists d. constructor; auto. constructor.
        -- now apply plain_no_array.
        -- exact Hop.
        -- eapply en_member; eauto.
        -- eapply simple_within; eauto.
Qed.
End Agree.

(** The stream agrees with the synchronous decoder exactly on arrays, primitives, and objects whose
    lines are not nested and hold no array. *)
Theorem C32_agrees_exactly :
  forall (lines : list str) (indent : option nat) (strict : option bool) (evs : list event),
    decode_stream_sync lines (Some (DStreamOpts indent strict)) = Ok evs ->
    (polled lines (Some (DStreamOpts indent strict)) evs <->
     hd_error evs <> Some EvStartObject \/
     exists ls bs, SpecRead.scans (unwrap_or strict true) (unwrap_or indent 2) 1 lines ls bs /\ simple_lines ls).
Proof.
  intros lines indent strict evs E. pose proof E as E0. rewrite (kept_spec (DStreamOpts indent strict)) in E. cbn [dso_indent dso_strict] in E.
  apply stream_spec in E as (ls & bs & v & Hs & Hr & ->).
  assert (D : hd_error (tree_events v) = Some EvStartObject \/ hd_error (tree_events v) <> Some EvStartObject).
  { destruct v; cbn; [right; discriminate|right; discriminate|now left]. }
  split.
  - intros H. destruct D as [D|D]; [right|now left]. exists ls, bs. split; auto.
    apply polled_answers in H. eapply before_simple; eauto.
  - intros [H|(ls' & bs' & Hs' & HF)]; [now apply C32_arrays_and_primitives_agree|].
    destruct D as [D|D]; [|now apply C32_arrays_and_primitives_agree].
    assert (ls' = ls) as ->.
    { destruct (scans_complete _ _ _ _ _ _ Hs 0 [] eq_refl) as (p1 & s1 & X1 & <- & _).
      destruct (scans_complete _ _ _ _ _ _ Hs' 0 [] eq_refl) as (p2 & s2 & X2 & <- & _). congruence. }
    apply polled_answers. eapply simple_before; eauto.
Qed.
Print Assumptions C32_agrees_exactly.

(** A first line that is indented, and a key that looks like the start of a header. *)
Definition odd_lines : list str := [lit "  a: 1"; []; lit "[x]: [2]: y"; lit """b"": """""].
Definition odd_events : list event :=
  EvStartObject :: primitive_members [(lit "a", false, num "1"); (lit "[x]", false, PStr (lit "[2]: y")); (lit "b", true, PStr [])] ++ [EvEndObject].
Example C32_agreeing :
  decode_stream_sync odd_lines (Some (DStreamOpts None None)) = Ok odd_events /\ polled odd_lines (Some (DStreamOpts None None)) odd_events /\
  exists ls bs, SpecRead.scans true 2 1 odd_lines ls bs /\ simple_lines ls /\ ls <> [].
Proof.
  assert (D : decode_stream_sync odd_lines (Some (DStreamOpts None None)) = Ok odd_events) by (vm_compute; reflexivity).
  assert (P : polled odd_lines (Some (DStreamOpts None None)) odd_events) by (apply (drain_polled 20); vm_compute; reflexivity).
  split; [exact D|]. split; [exact P|]. apply C32_agrees_exactly in P as [P|(ls & bs & Hs & Hl)]; [|exists ls, bs|exact D].
  - now destruct P.
  - split; [exact Hs|]. split; [exact Hl|]. intros ->. inversion Hs as [|? ? ? ? ? Hb _|]; subst. apply nonblank_spec in Hb. vm_compute in Hb. discriminate.
Qed.
(** The same with one line more: it is indented, and only the stream reads it. *)
Example C32_disagreeing :
  decode_stream_sync [lit "a: 1"; lit "  b: 2"] None = Ok (EvStartObject :: primitive_members [(lit "a", false, num "1")] ++ [EvEndObject]) /\
  polled [lit "a: 1"; lit "  b: 2"] None (EvStartObject :: primitive_members [(lit "a", false, num "1"); (lit "b", false, num "2")] ++ [EvEndObject]).
Proof. split; [vm_compute; reflexivity|apply (drain_polled 20); vm_compute; reflexivity]. Qed.
