(** Replacing a word: tokens, cells, headers and keys of a line. *)
From Verif Require Import Chars Floats Json Shared Parser Lex Spec SpecText SpecRead ReadLex ReadHead ReadLine ReadProof SpecError ErrLex SpecEdit.

Local Open Scope nat_scope.

Definition open (x : str) : Prop := forall r, x <> r ++ [cBSLASH].
Lemma open_suffix a x : open (a ++ x) -> open x.
Proof. intros H r ->. apply (H (a ++ r)). apply app_assoc. Qed.
Lemma open_cons a x : open (a :: x) -> open x. Proof. apply (open_suffix [a]). Qed.
Lemma open_nil : open []. Proof. intros r E. symmetry in E. apply app_eq_nil in E as [_ E]. discriminate. Qed.

(** Where a character that is not in [c] and not in [y] stands. *)
Lemma at_before k (x c y a r : str) : ~ In k c -> ~ In k y -> x ++ c ++ y = a ++ k :: r ->
  exists x', x = a ++ k :: x' /\ r = x' ++ c ++ y.
Proof.
  intros Hc Hy. revert a. induction x as [|h x IH]; intros a E.
  - cbn in E. exfalso. assert (I : In k (c ++ y)) by (rewrite E; apply in_elt). apply in_app_or in I. tauto.
  - destruct a as [|h' a]; cbn in E; injection E as -> E.
    + exists x. auto.
    + destruct (IH _ E) as (x' & -> & ->). exists x'. auto.
Qed.
Lemma at_either k (x c y a r : str) : ~ In k c -> x ++ c ++ y = a ++ k :: r ->
  (exists x', x = a ++ k :: x' /\ r = x' ++ c ++ y) \/ (exists y', a = x ++ c ++ y' /\ y = y' ++ k :: r).
Proof.
  intros Hc. revert a. induction x as [|h x IH]; intros a E.
  - right. cbn in E. cbn. revert a E. induction c as [|h c IHc]; intros a E.
    + exists a. auto.
    + destruct a as [|h' a]; cbn in E; injection E as -> E; [exfalso; apply Hc; now left|].
      destruct (IHc (fun I => Hc (or_intror I)) _ E) as (y' & -> & ->). exists y'. auto.
  - destruct a as [|h' a]; cbn in E; injection E as -> E.
    + left. exists x. auto.
    + destruct (IH _ E) as [(x' & -> & ->)|(y' & -> & ->)]; [left; exists x'; auto|right; exists y'; auto].
Qed.
Lemma at_lead k (x c y w r : str) : c <> [] -> (forall h s, c = h :: s -> is_ws h = false) -> ~ In k c -> blank w ->
  x ++ c ++ y = w ++ k :: r -> exists x', x = w ++ k :: x' /\ r = x' ++ c ++ y.
Proof.
  intros N T Hc. revert w. induction x as [|h x IH]; intros w Hw E.
  - exfalso. destruct c as [|h c]; [congruence|]. cbn in E. destruct w as [|h' w]; cbn in E; injection E as -> E.
    + apply Hc. now left.
    + specialize (T _ _ eq_refl). inversion Hw; subst. congruence.
  - destruct w as [|h' w]; cbn in E; injection E as -> E.
    + exists x. auto.
    + inversion Hw as [|? ? _ Hw']; subst. destruct (IH _ Hw' E) as (x' & -> & ->). exists x'. auto.
Qed.

Section Word.
Variables c c' : str.
Hypothesis Hc : word c.
Hypothesis Hc' : word c'.

Lemma word_not k u : word u -> In k marks -> ~ In k u.
Proof. intros (_ & F & _) I I'. exact (F _ I' I). Qed.
Ltac nomark := apply word_not; [assumption|cbn; tauto].

(** ** Quotes *)
Lemma quoting_through u q y q' : word u -> quoting q (u ++ y) q' <-> quoting q y q'.
Proof.
  intros W. assert (D := word_not cDQ u W ltac:(cbn; tauto)). assert (B := word_not cBSLASH u W ltac:(cbn; tauto)). clear W.
  induction u as [|h u IH]; [reflexivity|]. cbn [app]. rewrite quoting_plain.
  - apply IH; firstorder.
  - intros ->. apply D. now left.
  - intros _ ->. apply B. now left.
Qed.
Lemma quoting_swap y q' : forall n x q, length x <= n -> open x -> quoting q (x ++ c ++ y) q' -> quoting q (x ++ c' ++ y) q'.
Proof.
  induction n as [|n IH]; intros x q L O.
  - destruct x; [|cbn in L; lia]. cbn. now rewrite !quoting_through.
  - destruct (quote_cases q x) as [->|[(r & ->)|[(-> & h & r & ->)|H]]].
    + cbn. now rewrite !quoting_through.
    + cbn in L. cbn [app]. rewrite !quoting_quote. apply IH; [lia|eapply open_cons; eauto].
    + cbn in L. cbn [app]. rewrite !quoting_pair. apply IH; [lia|eapply open_cons, open_cons; eauto].
    + destruct H as [(-> & E)|(h' & r' & E & D & B)].
      * exfalso. apply (O []). exact E.
      * subst x. cbn in L. cbn [app]. rewrite !quoting_plain by assumption. apply IH; [lia|eapply open_cons; eauto].
Qed.

Lemma unquoted_swap k x y : In k marks -> open x -> unquoted k (x ++ c ++ y) -> unquoted k (x ++ c' ++ y).
Proof.
  intros Hk O (a & b & E & Q). destruct (at_either _ _ _ _ _ _ (word_not k c Hc Hk) E) as [(x' & -> & ->)|(y' & -> & ->)].
  - exists a, (x' ++ c' ++ y). split; [now rewrite <- app_assoc|exact Q].
  - exists (x ++ c' ++ y'), b. split; [now rewrite <- !app_assoc|]. eapply quoting_swap; [apply le_n|exact O|exact Q].
Qed.

Lemma unescapes_through u y s : word u -> unescapes (u ++ y) s -> exists s', unescapes y s'.
Proof.
  intros W. assert (B := word_not cBSLASH u W ltac:(cbn; tauto)). clear W. revert s.
  induction u as [|h u IH]; intros s H; [eauto|]. cbn [app] in H. inversion H; subst.
  - eapply IH; eauto. firstorder.
  - exfalso. apply B. now left.
Qed.
Lemma unescapes_onto u y s : word u -> unescapes y s -> unescapes (u ++ y) (u ++ s).
Proof.
  intros W H. assert (D := word_not cDQ u W ltac:(cbn; tauto)). assert (B := word_not cBSLASH u W ltac:(cbn; tauto)). clear W.
  induction u as [|h u IH]; [exact H|]. cbn [app]. constructor; [intros ->; apply D; now left|intros ->; apply B; now left|].
  apply IH; firstorder.
Qed.
Lemma unescapes_swap y : forall n x s, length x <= n -> open x -> unescapes (x ++ c ++ y) s -> exists s', unescapes (x ++ c' ++ y) s'.
Proof.
  assert (Z : forall s, unescapes (c ++ y) s -> exists s', unescapes (c' ++ y) s').
  { intros s H. apply unescapes_through in H as (s' & H); [|exact Hc]. exists (c' ++ s'). apply unescapes_onto; assumption. }
  induction n as [|n IH]; intros x s L O H; (destruct x as [|h x]; [exact (Z s H)|cbn in L; try lia]).
  cbn [app] in *. inversion H as [|h' t s1 D B U|e e' t s1 I U]; subst.
  - destruct (IH x s1) as (s' & H'); [lia|eapply open_cons; eauto|exact U|]. exists (h :: s'). apply ue_plain; auto.
  - destruct x as [|h x]; [exfalso; apply (O []); reflexivity|]. cbn [app] in *. match goal with E : _ :: _ = _ :: _ |- _ => injection E as -> -> end. cbn in L.
    destruct (IH x s1) as (s' & H'); [lia|eapply open_cons, open_cons; eauto|exact U|]. exists (e :: s'). eapply ue_escape; eauto.
Qed.
Lemma body_through u y : word u -> quote_body (u ++ y) <-> quote_body y.
Proof.
  intros W. assert (D := word_not cDQ u W ltac:(cbn; tauto)). assert (B := word_not cBSLASH u W ltac:(cbn; tauto)). clear W.
  induction u as [|h u IH]; [reflexivity|]. cbn [app]. rewrite <- IH by firstorder. split.
  - intros H. inversion H; subst; [assumption|]. exfalso. apply B. now left.
  - intros H. constructor; [intros ->; apply D; now left|intros ->; apply B; now left|exact H].
Qed.
Lemma body_swap y : forall n x, length x <= n -> open x -> quote_body (x ++ c ++ y) -> quote_body (x ++ c' ++ y).
Proof.
  induction n as [|n IH]; intros x L O H; (destruct x as [|h x]; [cbn [app] in *; apply (body_through c' y Hc'); apply (body_through c y Hc); exact H|cbn in L; try lia]).
  cbn [app] in *. inversion H as [|h' t D B U|e t U]; subst.
  - constructor; auto. apply IH; [lia|eapply open_cons; eauto|exact U].
  - destruct x as [|h x]; [exfalso; apply (O []); reflexivity|]. cbn [app] in *. match goal with E : _ :: _ = _ :: _ |- _ => injection E as -> -> end. cbn in L.
    apply qb_pair. apply IH; [lia|eapply open_cons, open_cons; eauto|exact U].
Qed.

(** ** Tokens *)
Lemma lead_split (x : str) : exists w x1, x = w ++ x1 /\ blank w /\ (forall h r, x1 = h :: r -> is_ws h = false).
Proof.
  induction x as [|h x (w & x1 & -> & Hw & H1)].
  - exists [], []. repeat split; [constructor|discriminate].
  - destruct (is_ws h) eqn:E.
    + exists (h :: w), x1. repeat split; [constructor; auto|exact H1].
    + exists [], (h :: w ++ x1). repeat split; [constructor|]. intros h' r [= <- _]. exact E.
Qed.
Lemma end_split (y : str) : exists y1 z, y = y1 ++ z /\ blank z /\ (forall h r, y1 = r ++ [h] -> is_ws h = false).
Proof.
  induction y as [|h y (y1 & z & -> & Hz & H1)] using rev_ind.
  - exists [], []. repeat split; [constructor|]. intros h r E. symmetry in E. apply app_eq_nil in E as [_ E]. discriminate.
  - destruct (is_ws h) eqn:E.
    + exists y1, (z ++ [h]). repeat split; [now rewrite app_assoc|apply Forall_app; split; [exact Hz|constructor; auto]|exact H1].
    + exists ((y1 ++ z) ++ [h]), []. repeat split; [now rewrite app_nil_r|constructor|]. intros h' r E'. apply app_inj_tail in E' as [_ <-]. exact E.
Qed.
Lemma around x y : exists w x1 y1 z, x = w ++ x1 /\ y = y1 ++ z /\ blank w /\ blank z /\
  (forall h r, x1 = h :: r -> is_ws h = false) /\ (forall h r, y1 = r ++ [h] -> is_ws h = false) /\
  forall u, word u -> trims (x ++ u ++ y) (x1 ++ u ++ y1).
Proof.
  destruct (lead_split x) as (w & x1 & -> & Hw & H1). destruct (end_split y) as (y1 & z & -> & Hz & H2).
  exists w, x1, y1, z. do 6 (split; [assumption || reflexivity|]). intros u (N & _ & T1 & T2). exists w, z.
  split; [now rewrite <- !app_assoc|]. do 2 (split; [assumption|]). split.
  - intros h r E. destruct x1 as [|h1 x1]; [|cbn in E; injection E as <- _; eauto]. cbn in E. destruct u as [|h1 u]; [congruence|]. cbn in E.
    injection E as <- _. eauto.
  - intros h r E. destruct (list_last_cases y1) as [->|(y2 & h2 & ->)].
    + rewrite app_nil_r in E. destruct (list_last_cases u) as [->|(u2 & h2 & ->)]; [congruence|]. rewrite app_assoc in E. apply app_inj_tail in E as [_ <-]. eauto.
    + rewrite !app_assoc in E. apply app_inj_tail in E as [_ <-]. eauto.
Qed.
Lemma trims_fun s t t' : trims s t -> trims s t' -> t = t'.
Proof. rewrite !trims_spec. congruence. Qed.
Lemma prim_trims s t p : trims s t -> (prim_text parse_f64 t p <-> prim_text parse_f64 s p).
Proof. intros H. apply trims_spec in H as ->. now rewrite <- prim_spec, <- prim_trim. Qed.

Lemma prim_swap x y p : open x -> prim_text parse_f64 (x ++ c ++ y) p -> exists p', prim_text parse_f64 (x ++ c' ++ y) p'.
Proof.
  intros O H. destruct (around x y) as (w & x1 & y1 & z & -> & -> & Hw & Hz & H1 & H2 & Ht).
  destruct (parse_primitive_token ((w ++ x1) ++ c' ++ y1 ++ z)) as [p'|e] eqn:E; [exists p'; now apply prim_spec|].
  apply prim_err in E. assert (Q : exists x2, x1 = cDQ :: x2).
  { apply bad_string_begins in E as (r & E). rewrite <- (proj1 (trims_spec _ _) (Ht c' Hc')) in E.
    destruct x1 as [|h x1]; [|cbn in E; injection E as -> _; eauto]. exfalso. cbn in E. pose proof (word_not cDQ c' Hc' ltac:(cbn; tauto)) as D.
    destruct Hc' as (N & _ & _ & _). revert N D E. destruct c' as [|h u]; [congruence|]. intros _ D E. cbn in E. injection E as -> _. apply D. now left. }
  destruct Q as (x2 & ->). assert (T := Ht c Hc). assert (T' := Ht c' Hc'). rewrite <- (prim_trims _ _ _ T) in H.
  assert (Tt : trims ((cDQ :: x2) ++ c ++ y1) ((cDQ :: x2) ++ c ++ y1)).
  { destruct T as (? & ? & _ & _ & _ & ? & ?). exists [], []. rewrite app_nil_r. repeat split; try constructor; auto. }
  assert (Qt : exists s, quotes ((cDQ :: x2) ++ c ++ y1) s).
  { inversion H as [B|u s U Q|U|U|U|u x' y' U Nn|u U N F]; subst.
    - exfalso. inversion B as [|? ? W]; subst. discriminate.
    - rewrite (trims_fun _ _ _ Tt U). eauto.
    - apply (trims_fun _ _ _ Tt) in U. discriminate.
    - apply (trims_fun _ _ _ Tt) in U. discriminate.
    - apply (trims_fun _ _ _ Tt) in U. discriminate.
    - apply (trims_fun _ _ _ Tt) in U. subst u. exfalso. destruct Nn as ((sg & ip & fp & ep & E' & Hs & (Di & Dd) & _) & _).
      destruct Hs as [-> | ->]; [|discriminate]. destruct ip as [|i ip]; [congruence|]. cbn in E'. injection E' as <- _. inversion Dd as [|? ? D1]; subst. unfold digit in D1. lia.
    - apply (trims_fun _ _ _ Tt) in U. subst u. exfalso. eapply F. reflexivity. }
  destruct Qt as (s & b & Eb & U). cbn in Eb. injection Eb as Eb.
  destruct (list_last_cases y1) as [->|(y2 & h & ->)].
  { exfalso. rewrite app_nil_r in Eb. destruct (list_last_cases c) as [Ec|(u & h & Ec)]; [destruct Hc; congruence|].
    rewrite Ec, app_assoc in Eb. apply app_inj_tail in Eb as [_ ->]. apply (word_not cDQ c Hc); [cbn; tauto|]. rewrite Ec. apply in_elt. }
  rewrite !app_assoc in Eb. apply app_inj_tail in Eb as [<- ->].
  rewrite <- app_assoc in U. assert (O2 : open x2) by (eapply open_cons, open_suffix; eauto).
  destruct (unescapes_swap y2 _ x2 s (le_n _) O2 U) as (s' & U').
  exists (PStr s'). eapply pt_quoted; [exact T'|]. exists (x2 ++ c' ++ y2). split; [now rewrite <- !app_assoc|exact U'].
Qed.
End Word.

Section Swap.
Variables c c' : str.
Hypothesis Hc : word c.
Hypothesis Hc' : word c'.

(** ** Cells *)
Lemma pieces_swap dl : In dl marks -> dl <> cDQ -> dl <> cBSLASH -> forall s ts, pieces dl s ts -> forall x y ps, s = x ++ c ++ y -> open x ->
  Forall2 (prim_text parse_f64) ts ps ->
  exists a p b x0 x1 y1 y0, ps = a ++ p :: b /\ x = x0 ++ x1 /\ y = y1 ++ y0 /\ prim_text parse_f64 (x1 ++ c ++ y1) p /\
    forall p', prim_text parse_f64 (x1 ++ c' ++ y1) p' ->
      exists ts', pieces dl (x ++ c' ++ y) ts' /\ Forall2 (prim_text parse_f64) ts' (a ++ p' :: b).
Proof.
  intros Hd D B s ts H. induction H as [p t U T|p t r ts U Q T Hr IH]; intros x y ps E O F.
  - inversion F as [|? q ? ? Pq F']; subst. inversion F'; subst. exists [], q, [], [], x, y, []. rewrite app_nil_r.
    do 3 (split; [reflexivity|]). split; [now apply (prim_trims _ _ _ T)|]. intros p' Hp'.
    exists [trim (x ++ c' ++ y)]. split; [|constructor; [|constructor]].
    + apply pi_last; [|apply trims_trim]. intros U'. apply U. revert U'. now apply unquoted_swap.
    + apply (prim_trims _ _ _ (trims_trim _)). exact Hp'.
  - inversion F as [|? q ? ps' Pq F']; subst. symmetry in E.
    destruct (at_either _ _ _ _ _ _ (word_not dl c Hc Hd) E) as [(x' & -> & ->)|(y' & -> & ->)].
    + destruct (IH x' y ps' eq_refl) as (a & p0 & b & x0 & x1 & y1 & y0 & -> & -> & -> & Pp & Hp).
      { eapply open_cons, open_suffix; eauto. }
      { exact F'. }
      exists (q :: a), p0, b, (p ++ dl :: x0), x1, y1, y0. split; [reflexivity|]. split; [now rewrite <- app_assoc|]. split; [reflexivity|].
      split; [exact Pp|]. intros p' Hp'. destruct (Hp p' Hp') as (ts' & Hts & Hf). exists (t :: ts'). split; [|constructor; auto].
      rewrite <- app_assoc. apply pi_more; auto.
    + exists [], q, ps', [], x, y', (dl :: r). do 3 (split; [reflexivity|]). split; [now apply (prim_trims _ _ _ T)|]. intros p' Hp'.
      exists (trim (x ++ c' ++ y') :: ts). split.
      * replace (x ++ c' ++ y' ++ dl :: r) with ((x ++ c' ++ y') ++ dl :: r) by now rewrite <- !app_assoc.
        apply pi_more; [|eapply (quoting_swap c c' Hc Hc'); [apply le_n|exact O|exact Q]|apply trims_trim|assumption]. intros U'. apply U. exact (unquoted_swap c' c Hc' Hc dl x y' Hd O U').
      * constructor; [|exact F']. apply (prim_trims _ _ _ (trims_trim _)). exact Hp'.
Qed.

Definition any_delim (dl : char) : Prop := dl = cCOMMA \/ dl = cTAB \/ dl = cPIPE.
Lemma any_marks dl : any_delim dl -> In dl marks /\ dl <> cDQ /\ dl <> cBSLASH.
Proof. intros [->|[->| ->]]; (split; [cbn; tauto|split; discriminate]). Qed.
Lemma app_word_nil u x y : word u -> x ++ u ++ y <> [].
Proof. intros (N & _) E. apply app_eq_nil in E as [_ E]. apply app_eq_nil in E as [E _]. congruence. Qed.

Lemma prims_swap dl x y ps : any_delim dl -> open x -> prims_text parse_f64 dl (x ++ c ++ y) ps ->
  exists a p p' b, ps = a ++ p :: b /\ rewritten parse_f64 x c c' y p p' /\ prims_text parse_f64 dl (x ++ c' ++ y) (a ++ p' :: b).
Proof.
  intros Hd O (ts & [(E & _)|(N & Hp)] & F); [now apply app_word_nil in E|]. apply any_marks in Hd as (Hd & D & B).
  destruct (pieces_swap dl Hd D B _ _ Hp x y ps eq_refl O F) as (a & p & b & x0 & x1 & y1 & y0 & -> & -> & -> & Pp & H).
  destruct (prim_swap c c' Hc Hc' x1 y1 p) as (p' & Pp'); [eapply open_suffix; eauto|exact Pp|].
  exists a, p, p', b. split; [reflexivity|]. split; [exists x0, x1, y1, y0; auto|].
  destruct (H p' Pp') as (ts' & Hts & Hf). exists ts'. split; [right; split; [now apply app_word_nil|exact Hts]|exact Hf].
Qed.
Lemma token_swap x y p : open x -> prim_text parse_f64 (x ++ c ++ y) p ->
  exists p', prim_text parse_f64 (x ++ c' ++ y) p' /\ rewritten parse_f64 x c c' y p p'.
Proof.
  intros O H. destruct (prim_swap c c' Hc Hc' x y p O H) as (p' & Hp'). exists p'. split; [exact Hp'|]. exists [], x, y, [].
  rewrite app_nil_r. auto.
Qed.

(** ** Beginnings *)
Lemma word_lead u : word u -> u <> [] /\ (forall h s, u = h :: s -> is_ws h = false).
Proof. intros (N & _ & T & _). auto. Qed.
Lemma begins_swap k x y : In k marks -> begins k (x ++ c ++ y) -> begins k (x ++ c' ++ y).
Proof.
  intros Hk (w & r & E & Hw). destruct (word_lead c Hc) as (N & T).
  destruct (at_lead _ _ _ _ _ _ N T (word_not k c Hc Hk) Hw E) as (x' & -> & ->).
  exists w, (x' ++ c' ++ y). split; [now rewrite <- app_assoc|exact Hw].
Qed.
Lemma first_swap k x y : In k marks -> (forall r, x ++ c ++ y <> k :: r) -> forall r, x ++ c' ++ y <> k :: r.
Proof.
  intros Hk H r E. destruct x as [|h x]; [|cbn in E; injection E as -> _; eapply H; reflexivity]. cbn in E.
  destruct Hc' as (N & F & _). destruct c' as [|h u]; [congruence|]. cbn in E. injection E as -> _. apply (F k); [now left|exact Hk].
Qed.
Lemma not_blank x u y : word u -> ~ blank (x ++ u ++ y).
Proof.
  intros (N & _ & T & _) H. unfold blank in H. rewrite !Forall_app in H. destruct H as (_ & H & _). destruct u as [|h u]; [congruence|].
  inversion H; subst. specialize (T _ _ eq_refl). congruence.
Qed.
End Swap.

(** ** Headers and keys *)
Definition plain_after (y : str) : Prop := forall k, In k y -> ~ In k brackets.
Section Head.
Variables c c' y : str.
Hypothesis Hc : word c.
Hypothesis Hc' : word c'.
Hypothesis Hy : plain_after y.
Lemma bracket_mark k : In k brackets -> In k marks. Proof. intros H. unfold marks. do 5 right. exact H. Qed.
Lemma after_not k : In k brackets -> ~ In k y. Proof. intros H I. exact (Hy _ I H). Qed.
Lemma at_swap k x a r : In k brackets -> x ++ c ++ y = a ++ k :: r -> exists x', x = a ++ k :: x' /\ r = x' ++ c ++ y.
Proof. intros Hk. apply at_before; [apply word_not; [exact Hc|now apply bracket_mark]|now apply after_not]. Qed.
Lemma cut_swap k x a r : In k brackets -> cut k (x ++ c ++ y) a r -> exists x', x = a ++ k :: x' /\ r = x' ++ c ++ y /\ cut k (x ++ c' ++ y) a (x' ++ c' ++ y).
Proof.
  intros Hk (E & N). destruct (at_swap k x a r Hk E) as (x' & -> & ->). exists x'. split; [reflexivity|]. split; [reflexivity|].
  split; [now rewrite <- app_assoc|exact N].
Qed.
Ltac br := cbn; tauto.

Lemma head_swap x k r : head (x ++ c ++ y) k r -> exists x0 x', x = x0 ++ x' /\ r = x' ++ c ++ y /\ head (x ++ c' ++ y) k (x' ++ c' ++ y).
Proof.
  intros [k' r' N C|w b r' E Hw Hb].
  - destruct (cut_swap cLBRACK _ _ _ ltac:(br) C) as (x' & -> & -> & C'). exists (k' ++ [cLBRACK]), x'. split; [now rewrite <- app_assoc|]. split; [reflexivity|].
    apply he_bare; [|exact C']. intros B. apply N. revert B. apply begins_swap; auto. cbn. tauto.
  - destruct (at_swap cLBRACK x (w ++ cDQ :: b ++ [cDQ]) r' ltac:(br)) as (x' & -> & ->).
    { rewrite E, <- app_assoc. cbn. now rewrite <- app_assoc. }
    exists ((w ++ cDQ :: b ++ [cDQ]) ++ [cLBRACK]), x'. split; [now rewrite <- (app_assoc _ [_])|]. split; [reflexivity|].
    apply he_quoted; [|exact Hw|exact Hb]. rewrite <- !app_assoc. cbn. rewrite <- !app_assoc. reflexivity.
Qed.
Lemma tail_swap x f t : tail_parts (x ++ c ++ y) f t -> exists x0 x', x = x0 ++ x' /\ t = x' ++ c ++ y /\ tail_parts (x ++ c' ++ y) f (x' ++ c' ++ y).
Proof.
  intros [m r1 f' r2 z t' C1 N C2 C3|m t' C O].
  - destruct (cut_swap cLBRACE _ _ _ ltac:(br) C1) as (x1 & -> & -> & C1'). destruct (cut_swap cRBRACE _ _ _ ltac:(br) C2) as (x2 & -> & -> & C2').
    destruct (cut_swap cCOLON _ _ _ ltac:(br) C3) as (x3 & -> & -> & C3'). eexists (m ++ cLBRACE :: f' ++ cRBRACE :: z ++ [cCOLON]), x3.
    split; [rewrite <- !app_assoc; cbn; rewrite <- !app_assoc; cbn; now rewrite <- app_assoc|]. split; [reflexivity|]. eapply tp_fields; eauto.
  - destruct (cut_swap cCOLON _ _ _ ltac:(br) C) as (x' & Ex & -> & C'). exists (m ++ [cCOLON]), x'. split; [rewrite Ex, <- app_assoc; reflexivity|]. split; [reflexivity|].
    eapply tp_plain; [exact C'|]. destruct O as [O|(m1 & r1 & C1 & N1)]; [now left|right].
    destruct (cut_swap cLBRACE _ _ _ ltac:(br) C1) as (x1 & _ & -> & C1'). exists m1, (x1 ++ c' ++ y). split; [exact C1'|].
    intros I. apply N1. rewrite !in_app_iff in *. destruct I as [I|[I|I]]; auto. exfalso. revert I. apply word_not; [exact Hc'|cbn; tauto].
Qed.
Lemma frame_swap x k len f t : frame (x ++ c ++ y) k len f t ->
  exists x0 x', x = x0 ++ x' /\ t = x' ++ c ++ y /\ frame (x ++ c' ++ y) k len f (x' ++ c' ++ y).
Proof.
  intros (r & after & H & C & T). destruct (head_swap _ _ _ H) as (x0 & x1 & -> & -> & H').
  destruct (cut_swap cRBRACK _ _ _ ltac:(br) C) as (x2 & -> & -> & C'). destruct (tail_swap _ _ _ T) as (x3 & x4 & -> & -> & T').
  exists (x0 ++ len ++ cRBRACK :: x3), x4. split; [rewrite <- !app_assoc; reflexivity|]. split; [reflexivity|].
  exists ((len ++ cRBRACK :: x3 ++ x4) ++ c' ++ y), ((x3 ++ x4) ++ c' ++ y). auto.
Qed.
Lemma header_swap x h t : is_header (x ++ c ++ y) h t ->
  exists x0 x', x = x0 ++ x' /\ t = x' ++ c ++ y /\ is_header (x ++ c' ++ y) h (x' ++ c' ++ y).
Proof.
  intros [k len f tail key n dl fs F K L B M]. destruct (frame_swap _ _ _ _ _ F) as (x0 & x' & E & -> & F').
  exists x0, x'. split; [exact E|]. split; [reflexivity|]. econstructor; eauto.
Qed.
Lemma key_swap x k q r : key_line (x ++ c ++ y) k q r ->
  exists x0 x', x = x0 ++ x' /\ r = x' ++ c ++ y /\ key_line (x ++ c' ++ y) k q (x' ++ c' ++ y).
Proof.
  intros [b k' r' E U|t k' r' N C T].
  - destruct (at_swap cCOLON x (cDQ :: b ++ [cDQ]) r' ltac:(br)) as (x' & -> & ->).
    { rewrite E. cbn. now rewrite <- app_assoc. }
    exists (cDQ :: b ++ [cDQ; cCOLON]), x'. split; [cbn; now rewrite <- !app_assoc|]. split; [reflexivity|].
    eapply kl_quoted; [|exact U]. cbn. rewrite <- !app_assoc. reflexivity.
  - destruct (cut_swap cCOLON _ _ _ ltac:(br) C) as (x' & Ex & -> & C'). exists (t ++ [cCOLON]), x'.
    split; [rewrite Ex, <- app_assoc; reflexivity|]. split; [reflexivity|]. eapply kl_bare; eauto.
    apply (first_swap c c' Hc'); [cbn; tauto|exact N].
Qed.
End Head.

Section Back.
Variables c c' y : str.
Hypothesis Hc : word c.
Hypothesis Hc' : word c'.
Hypothesis Hy : plain_after y.
Lemma no_header_swap x : open x -> no_header (x ++ c ++ y) -> no_header (x ++ c' ++ y).
Proof.
  intros O (H1 & H2). split.
  - intros w r E Hw. destruct (word_lead c' Hc') as (N & T).
    destruct (at_lead _ _ _ _ _ _ N T (word_not cDQ c' Hc' ltac:(cbn; tauto)) Hw E) as (x' & -> & ->).
    destruct (H1 w (x' ++ c ++ y)) as (b & r' & Eb & Hb); [now rewrite <- app_assoc|exact Hw|].
    destruct (at_either _ _ _ _ _ _ (word_not cDQ c Hc ltac:(cbn; tauto)) Eb) as [(x1 & -> & ->)|(y1 & -> & ->)].
    + exists b, (x1 ++ c' ++ y). split; [now rewrite <- app_assoc|exact Hb].
    + exists (x' ++ c' ++ y1), r'. split; [now rewrite <- !app_assoc|].
      eapply (body_swap c c' Hc Hc'); [apply le_n|eapply open_cons, open_suffix; eauto|exact Hb].
  - intros k len f t F. destruct (frame_swap c' c y Hc' Hc Hy _ _ _ _ _ F) as (x0 & x' & -> & -> & F'). eapply H2; eauto.
Qed.
Lemma plain_swap x : open x -> plain (x ++ c ++ y) -> plain (x ++ c' ++ y).
Proof.
  intros O [H|(h & t & H & K)]; [left; now apply no_header_swap|right].
  destruct (header_swap c c' y Hc Hc' Hy _ _ _ H) as (x0 & x' & _ & _ & H'). eauto.
Qed.
Lemma has_colon_swap x : has_colon (x ++ c ++ y) -> has_colon (x ++ c' ++ y).
Proof.
  intros [(b & r & E & Hb & I)|(N & I)].
  - left. apply in_split in I as (r1 & r2 & ->).
    destruct (at_swap c y Hc Hy cCOLON x (cDQ :: b ++ cDQ :: r1) r2 ltac:(cbn; tauto)) as (x' & -> & ->).
    { rewrite E. cbn. now rewrite <- app_assoc. }
    exists b, (r1 ++ cCOLON :: x' ++ c' ++ y). split; [cbn; now rewrite <- !app_assoc; cbn; rewrite <- ?app_assoc|]. split; [exact Hb|apply in_elt].
  - right. split; [apply (first_swap c c' Hc'); [cbn; tauto|exact N]|]. rewrite !in_app_iff in *. destruct I as [I|[I|I]]; auto.
    exfalso. revert I. apply word_not; [exact Hc|cbn; tauto].
Qed.
Lemma data_row_swap dl x : any_delim dl -> open x -> data_row dl (x ++ c ++ y) -> data_row dl (x ++ c' ++ y).
Proof.
  intros Hd O [H|(a & b & E & Q & N)].
  - left. intros U. apply H. revert U. apply unquoted_swap; auto. cbn; tauto.
  - right. destruct (any_marks dl Hd) as (Hm & _).
    destruct (at_either _ _ _ _ _ _ (word_not dl c Hc Hm) E) as [(x' & -> & ->)|(y' & -> & ->)].
    + exists a, (x' ++ c' ++ y). split; [now rewrite <- app_assoc|]. auto.
    + exists (x ++ c' ++ y'), b. split; [now rewrite <- !app_assoc|]. split; [eapply (quoting_swap c c' Hc Hc'); [apply le_n|exact O|exact Q]|].
      intros U. apply N. revert U. apply unquoted_swap; auto. cbn; tauto.
Qed.
End Back.

