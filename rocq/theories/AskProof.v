(** Proofs about replacers with a state. *)
From Verif Require Import Chars Floats Json JsonInd JsonEq Shared EncPrim Normalize Folding Encoders Replacer EncodeApi
  ReplacerState Spec SpecReplace SpecAsk NumProof PrimProof ReplaceProof.

Local Open Scope nat_scope.

Lemma NoDup_app_iff' {T} (a b : list T) : NoDup (a ++ b) <-> NoDup a /\ NoDup b /\ (forall x, In x a -> In x b -> False).
Proof.
  induction a as [|x a IH]; cbn [app].
  - split; [intros H; split; [constructor|split; [auto|intros ? []]]|tauto].
  - rewrite !NoDup_cons_iff, IH, in_app_iff. cbn [In]. split.
    + intros (H1 & H2 & H3 & H4). repeat split; auto. intros y [->|Hy] Hb; eauto.
    + intros ((H1 & H2) & H3 & H4). repeat split; eauto. intros [H|H]; eauto.
Qed.
Lemma answers_app {A} (rep : A -> str -> json -> list path_segment -> A * option json) q qs : forall s s',
  answers rep s (q ++ qs) s' <-> exists s1, answers rep s q s1 /\ answers rep s1 qs s'.
Proof.
  induction q as [|[k v p a] q IH]; intros s s'; cbn [app].
  - split; [intros H; exists s; split; [constructor|auto]|intros (s1 & H & H'); inversion H; subst; auto].
  - split.
    + intros H. inversion H as [|? ? ? ? ? s1 ? ? E H1]; subst. apply IH in H1 as (s2 & H1 & H2). exists s2. split; auto.
      econstructor; eauto.
    + intros (s1 & H & H'). inversion H as [|? ? ? ? ? s2 ? ? E H1]; subst. econstructor; eauto. apply IH. eauto.
Qed.
Lemma answers_fun {A} (rep : A -> str -> json -> list path_segment -> A * option json) qs : forall s a b,
  answers rep s qs a -> answers rep s qs b -> a = b.
Proof.
  induction qs as [|q qs IH]; intros s a b Ha Hb; inversion Ha as [|? ? ? ? ? sa ? ? Ea Ha']; subst; inversion Hb as [|? ? ? ? ? sb ? ? Eb Hb']; subst; auto.
  rewrite Ea in Eb. injection Eb as ->. eauto.
Qed.

Section Proofs.
Context {A : Type}.
Variable rep : @state_replacer A.
Notation tr := (fun fuel => transform_children_state fuel rep).
Notation ti := (fun fuel => transform_items_state (transform_children_state fuel rep) rep).
Notation te := (fun fuel => transform_entries_state (transform_children_state fuel rep) rep).

Lemma sitems_cons rec path s i v l : transform_items_state rec rep path s i (v :: l) =
  match rep s (dec_of_N (N.of_nat i)) v (path ++ [PSIndex i]) with
  | (s1, None) => transform_items_state rec rep path s1 (S i) l
  | (s1, Some x) => match rec s1 (normalize_json_value x) (path ++ [PSIndex i]) with
              | None => None
              | Some (s2, t) => option_map (fun x => (fst x, t :: snd x)) (transform_items_state rec rep path s2 (S i) l)
              end
  end.
Proof. reflexivity. Qed.
Lemma sentries_cons rec path s k v l : transform_entries_state rec rep path s ((k, v) :: l) =
  match rep s k v (path ++ [PSKey k]) with
  | (s1, None) => transform_entries_state rec rep path s1 l
  | (s1, Some x) => match rec s1 (normalize_json_value x) (path ++ [PSKey k]) with
              | None => None
              | Some (s2, t) => option_map (fun x => (fst x, (k, t) :: snd x)) (transform_entries_state rec rep path s2 l)
              end
  end.
Proof. reflexivity. Qed.

Lemma state_sound fuel : forall v path s s' w,
  transform_children_state fuel rep s v path = Some (s', w) -> exists qs, asked path v qs w /\ answers rep s qs s'.
Proof.
  induction fuel as [|fuel IH]; intros v path s s' w; cbn [transform_children_state]; [discriminate|].
  destruct v as [p|l|l].
  - intros E. injection E as <- <-. exists []. split; constructor.
  - destruct (transform_items_state _ _ _ _ _ _) as [[s1 m]|] eqn:E; cbn; [|discriminate]. intros H. injection H as <- <-.
    enough (X : exists qs, asked_items path 0 l qs m /\ answers rep s qs s1) by (destruct X as (qs & X1 & X2); exists qs; split; [now constructor|auto]).
    revert s m E. generalize 0. induction l as [|v l IHl]; intros i s m E; [|rewrite sitems_cons in E].
    + injection E as <- <-. exists []. split; constructor.
    + destruct (rep _ _ _ _) as [s2 [x|]] eqn:Er.
      * destruct (transform_children_state _ _ _ _ _) as [[s3 t]|] eqn:Et; [|discriminate].
        destruct (transform_items_state _ _ _ _ _ l) as [[s4 m']|] eqn:El; [|discriminate]. cbn in E. injection E as -> <-.
        apply IH in Et as (q & Hq & Ha). apply IHl in El as (qs & Hqs & Has). eexists. split.
        -- eapply aki_keep; eauto using normalize_spec.
        -- econstructor; eauto. apply answers_app. eauto.
      * apply IHl in E as (qs & Hqs & Has). eexists. split; [eapply aki_drop; eauto|econstructor; eauto].
  - destruct (transform_entries_state _ _ _ _ _) as [[s1 m]|] eqn:E; cbn; [|discriminate]. intros H. injection H as <- <-.
    enough (X : exists qs, asked_members path l qs m /\ answers rep s qs s1) by (destruct X as (qs & X1 & X2); exists qs; split; [now constructor|auto]).
    revert s m E. induction l as [|[k v] l IHl]; intros s m E; [|rewrite sentries_cons in E].
    + injection E as <- <-. exists []. split; constructor.
    + destruct (rep _ _ _ _) as [s2 [x|]] eqn:Er.
      * destruct (transform_children_state _ _ _ _ _) as [[s3 t]|] eqn:Et; [|discriminate].
        destruct (transform_entries_state _ _ _ _ l) as [[s4 m']|] eqn:El; [|discriminate]. cbn in E. injection E as -> <-.
        apply IH in Et as (q & Hq & Ha). apply IHl in El as (qs & Hqs & Has). eexists. split.
        -- eapply akm_keep; eauto using normalize_spec.
        -- econstructor; eauto. apply answers_app. eauto.
      * apply IHl in E as (qs & Hqs & Has). eexists. split; [eapply akm_drop; eauto|econstructor; eauto].
Qed.

Lemma state_complete :
  (forall path v qs w, asked path v qs w -> forall s s', answers rep s qs s' ->
     exists n, forall fuel, n <= fuel -> transform_children_state fuel rep s v path = Some (s', w)) /\
  (forall path i l qs m, asked_items path i l qs m -> forall s s', answers rep s qs s' ->
     exists n, forall fuel, n <= fuel -> transform_items_state (transform_children_state fuel rep) rep path s i l = Some (s', m)) /\
  (forall path l qs m, asked_members path l qs m -> forall s s', answers rep s qs s' ->
     exists n, forall fuel, n <= fuel -> transform_entries_state (transform_children_state fuel rep) rep path s l = Some (s', m)).
Proof.
  apply asked_mutind.
  - intros path p s s' Ha. inversion Ha; subst. exists 1. intros [|f] Hf; [lia|reflexivity].
  - intros path l qs m _ IH s s' Ha. destruct (IH _ _ Ha) as [n H]. exists (S n). intros [|f] Hf; [lia|]. cbn [transform_children_state]. now rewrite H by lia.
  - intros path l qs m _ IH s s' Ha. destruct (IH _ _ Ha) as [n H]. exists (S n). intros [|f] Hf; [lia|]. cbn [transform_children_state]. now rewrite H by lia.
  - intros path i s s' Ha. inversion Ha; subst. exists 0. reflexivity.
  - intros path i v l qs m _ IH s s' Ha. inversion Ha as [|? ? ? ? ? s1 ? ? E Ha']; subst. destruct (IH _ _ Ha') as [n H].
    exists n. intros f Hf. rewrite sitems_cons, E. auto.
  - intros path i v x nx q w l qs m Hn _ IH1 _ IH2 s s' Ha. inversion Ha as [|? ? ? ? ? s1 ? ? E Ha']; subst.
    apply answers_app in Ha' as (s2 & Ha1 & Ha2). destruct (IH1 _ _ Ha1) as [n1 H1]. destruct (IH2 _ _ Ha2) as [n2 H2].
    exists (n1 + n2). intros f Hf. rewrite sitems_cons, E. rewrite <- (norm_is _ _ Hn), H1, H2 by lia. reflexivity.
  - intros path s s' Ha. inversion Ha; subst. exists 0. reflexivity.
  - intros path k v l qs m _ IH s s' Ha. inversion Ha as [|? ? ? ? ? s1 ? ? E Ha']; subst. destruct (IH _ _ Ha') as [n H].
    exists n. intros f Hf. rewrite sentries_cons, E. auto.
  - intros path k v x nx q w l qs m Hn _ IH1 _ IH2 s s' Ha. inversion Ha as [|? ? ? ? ? s1 ? ? E Ha']; subst.
    apply answers_app in Ha' as (s2 & Ha1 & Ha2). destruct (IH1 _ _ Ha1) as [n1 H1]. destruct (IH2 _ _ Ha2) as [n2 H2].
    exists (n1 + n2). intros f Hf. rewrite sentries_cons, E. rewrite <- (norm_is _ _ Hn), H1, H2 by lia. reflexivity.
Qed.

Lemma apply_state_sound fuel s v s' w : apply_replacer_state fuel rep s v = Some (s', w) ->
  exists qs, asked_root v qs w /\ answers rep s qs s'.
Proof.
  unfold apply_replacer_state. destruct (rep s [] v []) as [s1 [x|]] eqn:E; intros H; apply state_sound in H as (qs & Hq & Ha).
  - eexists. split; [eapply ar_new; eauto using normalize_spec|econstructor; eauto].
  - eexists. split; [eapply ar_keep; eauto|econstructor; eauto].
Qed.
Lemma apply_state_complete s v s' w qs : asked_root v qs w -> answers rep s qs s' ->
  exists n, forall fuel, n <= fuel -> apply_replacer_state fuel rep s v = Some (s', w).
Proof.
  intros Hq Ha. unfold apply_replacer_state. inversion Hq as [? q ? H|? x nx q ? Hn H]; subst; inversion Ha as [|? ? ? ? ? s1 ? ? E Ha']; subst; rewrite E.
  - eapply (proj1 state_complete); eauto.
  - rewrite <- (norm_is _ _ Hn). eapply (proj1 state_complete); eauto.
Qed.
End Proofs.

(** Results are normalised. *)
Lemma asked_canonical :
  (forall path v qs w, asked path v qs w -> canonical v -> canonical w) /\
  (forall path i l qs m, asked_items path i l qs m -> Forall canonical l -> Forall canonical m) /\
  (forall path l qs m, asked_members path l qs m -> Forall (fun kv => canonical (snd kv)) l -> Forall (fun kv => canonical (snd kv)) m).
Proof.
  apply asked_mutind; auto.
  - intros path l qs m _ IH Hc. inversion Hc; subst. constructor. auto.
  - intros path l qs m _ IH Hc. inversion Hc; subst. constructor. auto.
  - intros path i v l qs m _ IH Hc. inversion Hc; subst. auto.
  - intros path i v x n q w l qs m Hn _ IH1 _ IH2 Hc. inversion Hc; subst. constructor; eauto using norm_canonical.
  - intros path k v l qs m _ IH Hc. inversion Hc; subst. auto.
  - intros path k v x n q w l qs m Hn _ IH1 _ IH2 Hc. inversion Hc; subst. constructor; eauto using norm_canonical.
Qed.
Lemma asked_root_canonical v qs w : asked_root v qs w -> canonical v -> canonical w.
Proof. intros [? ? ? H|? x n ? ? Hn H] Hc; apply asked_canonical in H; eauto using norm_canonical. Qed.

(** A conversation determines the result; the answers determine the conversation. *)
Lemma asked_fun :
  (forall path v qs w, asked path v qs w -> forall w', asked path v qs w' -> w' = w) /\
  (forall path i l qs m, asked_items path i l qs m -> forall m', asked_items path i l qs m' -> m' = m) /\
  (forall path l qs m, asked_members path l qs m -> forall m', asked_members path l qs m' -> m' = m).
Proof.
  set (rep := fun (s : list ask) (_ : str) (_ : json) (_ : list path_segment) =>
    match s with q :: r => (r, ask_answer q) | [] => ([], None) end).
  assert (R : forall qs tl, answers rep (qs ++ tl) qs tl).
  { induction qs as [|[k v p a] qs IH]; intros tl; [constructor|]. econstructor; [reflexivity|apply IH]. }
  destruct (state_complete rep) as (C1 & C2 & C3). split; [|split].
  - intros path v qs w H w' H'. specialize (R qs []). destruct (C1 _ _ _ _ H _ _ R) as [n Hn], (C1 _ _ _ _ H' _ _ R) as [n' Hn'].
    specialize (Hn (n + n') ltac:(lia)). specialize (Hn' (n + n') ltac:(lia)). congruence.
  - intros path i l qs w H w' H'. specialize (R qs []). destruct (C2 _ _ _ _ _ H _ _ R) as [n Hn], (C2 _ _ _ _ _ H' _ _ R) as [n' Hn'].
    specialize (Hn (n + n') ltac:(lia)). specialize (Hn' (n + n') ltac:(lia)). congruence.
  - intros path l qs w H w' H'. specialize (R qs []). destruct (C3 _ _ _ _ H _ _ R) as [n Hn], (C3 _ _ _ _ H' _ _ R) as [n' Hn'].
    specialize (Hn (n + n') ltac:(lia)). specialize (Hn' (n + n') ltac:(lia)). congruence.
Qed.

(** Equality of values can be decided. *)
Lemma f64_dec (a b : f64) : a = b \/ a <> b.
Proof.
  destruct a as [a Ha], b as [b Hb].
  assert (D : {a = b} + {a <> b}) by (repeat decide equality).
  destruct D as [->|D]; [left; f_equal; apply Eqdep_dec.UIP_dec, Bool.bool_dec|right; congruence].
Qed.
Lemma prim_dec (a b : prim) : a = b \/ a <> b.
Proof.
  destruct a, b; try (right; discriminate); try (left; reflexivity).
  - destruct (list_eq_dec N.eq_dec s s0); [left|right]; congruence.
  - destruct (f64_dec x x0); [left|right]; congruence.
  - destruct (Bool.bool_dec b0 b); [left|right]; congruence.
Qed.
Lemma json_dec (a : json) : forall b, a = b \/ a <> b.
Proof.
  induction a as [p|l IH|l IH] using json_ind'; intros [q|m|m]; try (right; discriminate).
  - destruct (prim_dec p q); [left|right]; congruence.
  - enough (X : l = m \/ l <> m) by (destruct X; [left|right]; congruence).
    revert m. induction IH as [|a l Ha _ IHl]; intros [|b m]; try (right; discriminate); [now left|].
    destruct (Ha b), (IHl m); [left|right|right|right]; congruence.
  - enough (X : l = m \/ l <> m) by (destruct X; [left|right]; congruence).
    revert m. induction IH as [|[k a] l Ha _ IHl]; intros [|[k' b] m]; try (right; discriminate); [now left|].
    destruct (list_eq_dec N.eq_dec k k'), (Ha b), (IHl m); cbn in *; [left|right..]; congruence.
Qed.

(** Two conversations about the same value are the same up to the first different answer. *)
Lemma part_here k v p a b r r' : a <> b -> part (Ask k v p a :: r) (Ask k v p b :: r').
Proof. intros H. exists [], k, v, p, a, b, r, r'. auto. Qed.
Lemma part_cons q r r' : part r r' -> part (q :: r) (q :: r').
Proof. intros (c & k & v & p & a & b & s & s' & -> & -> & H). exists (q :: c), k, v, p, a, b, s, s'. auto. Qed.
Lemma part_app c r r' : part r r' -> part (c ++ r) (c ++ r').
Proof. induction c; cbn; auto using part_cons. Qed.
Lemma part_tail r r' s s' : part r r' -> part (r ++ s) (r' ++ s').
Proof.
  intros (c & k & v & p & a & b & t & t' & -> & -> & H). exists c, k, v, p, a, b, (t ++ s), (t' ++ s').
  now rewrite <- !app_assoc.
Qed.
Lemma asked_part :
  (forall path v qs w, asked path v qs w -> forall qs' w', asked path v qs' w' -> (qs = qs' /\ w = w') \/ part qs qs') /\
  (forall path i l qs m, asked_items path i l qs m -> forall qs' m', asked_items path i l qs' m' -> (qs = qs' /\ m = m') \/ part qs qs') /\
  (forall path l qs m, asked_members path l qs m -> forall qs' m', asked_members path l qs' m' -> (qs = qs' /\ m = m') \/ part qs qs').
Proof.
  apply asked_mutind.
  - intros path p qs' w' H. inversion H; subst. auto.
  - intros path l qs m _ IH qs' w' H. inversion H as [|? ? ? m' H'|]; subst. destruct (IH _ _ H') as [[-> ->]|]; auto.
  - intros path l qs m _ IH qs' w' H. inversion H as [| |? ? ? m' H']; subst. destruct (IH _ _ H') as [[-> ->]|]; auto.
  - intros path i qs' m' H. inversion H; subst. auto.
  - intros path i v l qs m _ IH qs' m' H. inversion H as [|? ? ? ? qs0 ? H'|]; subst.
    + destruct (IH _ _ H') as [[-> ->]|]; auto using part_cons.
    + right. apply part_here. discriminate.
  - intros path i v x n q w l qs m Hn Hq IH1 _ IH2 qs' m' H. inversion H as [|? ? ? ? qs0 ? H'|? ? ? x' n' q' w1 ? qs0 m0 Hn' H1 H2]; subst.
    + right. apply part_here. discriminate.
    + destruct (json_dec x x') as [<-|Hx]; [|right; apply part_here; congruence].
      assert (n' = n) by (rewrite (norm_is _ _ Hn), (norm_is _ _ Hn'); reflexivity). subst n'.
      destruct (IH1 _ _ H1) as [[-> ->]|]; [|right; auto using part_cons, part_tail].
      destruct (IH2 _ _ H2) as [[-> ->]|]; [auto|right; auto using part_cons, part_app].
  - intros path qs' m' H. inversion H; subst. auto.
  - intros path k v l qs m _ IH qs' m' H. inversion H as [|? ? ? ? qs0 ? H'|]; subst.
    + destruct (IH _ _ H') as [[-> ->]|]; auto using part_cons.
    + right. apply part_here. discriminate.
  - intros path k v x n q w l qs m Hn Hq IH1 _ IH2 qs' m' H. inversion H as [|? ? ? ? qs0 ? H'|? ? ? x' n' q' w1 ? qs0 m0 Hn' H1 H2]; subst.
    + right. apply part_here. discriminate.
    + destruct (json_dec x x') as [<-|Hx]; [|right; apply part_here; congruence].
      assert (n' = n) by (rewrite (norm_is _ _ Hn), (norm_is _ _ Hn'); reflexivity). subst n'.
      destruct (IH1 _ _ H1) as [[-> ->]|]; [|right; auto using part_cons, part_tail].
      destruct (IH2 _ _ H2) as [[-> ->]|]; [auto|right; auto using part_cons, part_app].
Qed.
Lemma asked_root_part v qs w qs' w' : asked_root v qs w -> asked_root v qs' w' -> (qs = qs' /\ w = w') \/ part qs qs'.
Proof.
  intros [? q ? H|? x n q ? Hn H] H'; inversion H' as [? q' ? H1|? x' n' q' ? Hn' H1]; subst.
  - destruct (proj1 asked_part _ _ _ _ H _ _ H1) as [[-> ->]|]; auto using part_cons.
  - right. apply part_here. discriminate.
  - right. apply part_here. discriminate.
  - destruct (json_dec x x') as [<-|Hx]; [|right; apply part_here; congruence].
    assert (n' = n) by (rewrite (norm_is _ _ Hn), (norm_is _ _ Hn'); reflexivity). subst n'.
    destruct (proj1 asked_part _ _ _ _ H _ _ H1) as [[-> ->]|]; auto using part_cons.
Qed.
Lemma answers_apart {A} (rep : A -> str -> json -> list path_segment -> A * option json) s qs qs' s' s'' :
  part qs qs' -> answers rep s qs s' -> answers rep s qs' s'' -> False.
Proof.
  intros (c & k & v & p & a & b & r & r' & -> & -> & H) Ha Hb.
  apply answers_app in Ha as (s1 & A1 & A2), Hb as (s2 & B1 & B2). rewrite (answers_fun _ _ _ _ _ B1 A1) in B2.
  inversion A2 as [|? ? ? ? ? ? ? ? Ea]; subst. inversion B2 as [|? ? ? ? ? ? ? ? Eb]; subst. congruence.
Qed.

(** ** Each position once *)
Lemma asked_paths :
  (forall path v qs w, asked path v qs w -> distinct_keys v -> Forall answer_distinct qs ->
     NoDup (map ask_path qs) /\ (forall p, In p (map ask_path qs) -> exists g r, p = path ++ g :: r)) /\
  (forall path i l qs m, asked_items path i l qs m -> Forall distinct_keys l -> Forall answer_distinct qs ->
     NoDup (map ask_path qs) /\ (forall p, In p (map ask_path qs) -> exists j r, i <= j /\ p = path ++ PSIndex j :: r)) /\
  (forall path l qs m, asked_members path l qs m -> NoDup (map fst l) -> Forall (fun kv => distinct_keys (snd kv)) l -> Forall answer_distinct qs ->
     NoDup (map ask_path qs) /\ (forall p, In p (map ask_path qs) -> exists k r, In k (map fst l) /\ p = path ++ PSKey k :: r)).
Proof.
  apply asked_mutind.
  - intros. split; [constructor|intros ? []].
  - intros path l qs m _ IH Hd Ha. inversion Hd; subst. destruct IH as [N P]; auto. split; auto.
    intros p Hp. destruct (P p Hp) as (j & r & _ & ->). eauto.
  - intros path l qs m _ IH Hd Ha. inversion Hd; subst. destruct IH as [N P]; auto. split; auto.
    intros p Hp. destruct (P p Hp) as (j & r & _ & ->). eauto.
  - intros. split; [constructor|intros ? []].
  - intros path i v l qs m _ IH Hd Ha. inversion Hd; subst. inversion Ha; subst. destruct IH as [N P]; auto. cbn [map ask_path]. split.
    + constructor; auto. intros Hi. destruct (P _ Hi) as (j & r & Hj & E). apply app_inv_head in E. injection E as ->. lia.
    + intros p [<-|Hp]; [exists i, []; auto|]. destruct (P _ Hp) as (j & r & Hj & ->). exists j, r. split; [lia|auto].
  - intros path i v x n q w l qs m Hn _ IH1 _ IH2 Hd Ha. inversion Hd; subst. inversion Ha as [|? ? Hx Ha']; subst.
    apply Forall_app in Ha' as [Ha1 Ha2]. cbn in Hx. destruct IH1 as [N1 P1]; eauto using norm_distinct. destruct IH2 as [N2 P2]; auto.
    cbn [map ask_path]. rewrite map_app. split.
    + constructor.
      * intros Hi. apply in_app_or in Hi as [Hi|Hi].
        -- destruct (P1 _ Hi) as (g & r & E). rewrite <- app_assoc in E. apply app_inv_head in E. discriminate.
        -- destruct (P2 _ Hi) as (j & r & Hj & E). apply app_inv_head in E. injection E as ->. lia.
      * apply NoDup_app_iff'. split; [auto|split; auto]. intros p Q1 Q2. destruct (P1 _ Q1) as (g & r & ->).
        destruct (P2 _ Q2) as (j & r' & Hj & E). rewrite <- app_assoc in E. apply app_inv_head in E. injection E as ->. lia.
    + intros p [<-|Hp]; [exists i, []; auto|]. apply in_app_or in Hp as [Hp|Hp].
      * destruct (P1 _ Hp) as (g & r & ->). rewrite <- app_assoc. exists i, (g :: r). auto.
      * destruct (P2 _ Hp) as (j & r & Hj & ->). exists j, r. split; [lia|auto].
  - intros. split; [constructor|intros ? []].
  - intros path k v l qs m _ IH Hk Hd Ha. inversion Hk as [|? ? Hk1 Hk2]; subst. inversion Hd; subst. inversion Ha; subst. destruct IH as [N P]; auto. cbn [map ask_path fst]. split.
    + constructor; auto. intros Hi. destruct (P _ Hi) as (j & r & Hj & E). apply app_inv_head in E. injection E as ->. auto.
    + intros p [<-|Hp]; [exists k, []; split; [now left|auto]|]. destruct (P _ Hp) as (j & r & Hj & ->). exists j, r. split; [now right|auto].
  - intros path k v x n q w l qs m Hn _ IH1 _ IH2 Hk Hd Ha. inversion Hk as [|? ? Hk1 Hk2]; subst. inversion Hd; subst. inversion Ha as [|? ? Hx Ha']; subst.
    apply Forall_app in Ha' as [Ha1 Ha2]. cbn in Hx. destruct IH1 as [N1 P1]; eauto using norm_distinct. destruct IH2 as [N2 P2]; auto.
    cbn [map ask_path fst]. rewrite map_app. split.
    + constructor.
      * intros Hi. apply in_app_or in Hi as [Hi|Hi].
        -- destruct (P1 _ Hi) as (g & r & E). rewrite <- app_assoc in E. apply app_inv_head in E. discriminate.
        -- destruct (P2 _ Hi) as (j & r & Hj & E). apply app_inv_head in E. injection E as ->. auto.
      * apply NoDup_app_iff'. split; [auto|split; auto]. intros p Q1 Q2. destruct (P1 _ Q1) as (g & r & ->).
        destruct (P2 _ Q2) as (j & r' & Hj & E). rewrite <- app_assoc in E. apply app_inv_head in E. injection E as ->. auto.
    + intros p [<-|Hp]; [exists k, []; split; [now left|auto]|]. apply in_app_or in Hp as [Hp|Hp].
      * destruct (P1 _ Hp) as (g & r & ->). rewrite <- app_assoc. exists k, (g :: r). split; [now left|auto].
      * destruct (P2 _ Hp) as (j & r & Hj & ->). exists j, r. split; [now right|auto].
Qed.
Lemma asked_root_paths v qs w : asked_root v qs w -> distinct_keys v -> Forall answer_distinct qs -> NoDup (map ask_path qs).
Proof.
  intros [? q ? H|? x n q ? Hn H] Hd Ha; inversion Ha as [|? ? Hx Ha']; subst; cbn [map ask_path].
  - destruct (proj1 asked_paths _ _ _ _ H) as [N P]; auto. constructor; auto.
    intros Hi. destruct (P _ Hi) as (g & r & E). discriminate.
  - destruct (proj1 asked_paths _ _ _ _ H) as [N P]; eauto using norm_distinct. constructor; auto.
    intros Hi. destruct (P _ Hi) as (g & r & E). discriminate.
Qed.

(** ** A replacer that only looks *)
Definition seen (x : str * json * list path_segment) : ask := Ask (fst (fst x)) (snd (fst x)) (snd x) (Some (snd (fst x))).
Lemma norm_self v : canonical v -> norm_json v v.
Proof. intros H. rewrite <- (normalize_canonical v) at 2 by auto. apply normalize_spec. Qed.
Lemma asked_seen v : canonical v -> forall path, asked path v (map seen (positions path v)) v.
Proof.
  induction v as [p|l IH|l IH] using json_ind'; intros Hc path; inversion Hc as [|? C|? C]; subst.
  - constructor.
  - constructor. clear Hc. cbn [positions]. generalize 0. induction C as [|x l Hx _ IHl]; intros i; [constructor|]. inversion IH; subst.
    cbn [map]. rewrite map_app. eapply aki_keep; eauto using norm_self.
  - constructor. clear Hc. cbn [positions]. induction C as [|[k x] l Hx _ IHl]; [constructor|]. inversion IH; subst.
    cbn [map]. rewrite map_app. cbn [snd] in *. eapply akm_keep; eauto using norm_self.
Qed.
Lemma asked_root_seen v : canonical v -> asked_root v (map seen (([], v, []) :: positions [] v)) v.
Proof. intros H. eapply ar_new; eauto using norm_self, asked_seen. Qed.

Lemma positions_stand v : forall path k x p, In (k, x, p) (positions path v) <->
  exists q g y, p = path ++ q ++ [g] /\ stands v q y /\ child y k g x.
Proof.
  induction v as [p0|l IH|l IH] using json_ind'; intros path k x p; cbn [positions].
  - split; [intros []|intros (q & g & y & -> & H & Hc)]. inversion H as [|? ? ? ? ? ? Hc']; subst; [inversion Hc|inversion Hc'].
  - transitivity (exists j v, nth_error l j = Some v /\ ((k, x, p) = (dec_of_N (N.of_nat j), v, path ++ [PSIndex j]) \/ In (k, x, p) (positions (path ++ [PSIndex j]) v))).
    { transitivity (exists j v, nth_error l j = Some v /\ ((k, x, p) = (dec_of_N (N.of_nat (0 + j)), v, path ++ [PSIndex (0 + j)]) \/ In (k, x, p) (positions (path ++ [PSIndex (0 + j)]) v))); [|reflexivity].
      generalize 0. clear IH. induction l as [|v l IHl]; intros i.
      - split; [intros []|intros (j & v & H & _); destruct j; discriminate].
      - cbn [In]. rewrite in_app_iff, IHl. split.
        + intros [E|[H|(j & w & Hj & H)]].
          * exists 0, v. rewrite Nat.add_0_r. split; auto.
          * exists 0, v. rewrite Nat.add_0_r. split; auto.
          * exists (S j), w. rewrite <- plus_n_Sm. split; auto.
        + intros ([|j] & w & Hj & H).
          * injection Hj as <-. rewrite Nat.add_0_r in H. destruct H; auto.
          * right. right. exists j, w. rewrite <- plus_n_Sm in H. auto. }
    split.
    + intros (j & v & Hj & [E|H]).
      * injection E as -> -> ->. exists [], (PSIndex j), (JArr l). split; [auto|]. split; constructor; auto.
      * rewrite Forall_forall in IH. apply (IH v (nth_error_In _ _ Hj)) in H as (q & g & y & -> & Hs & Hc).
        exists (PSIndex j :: q), g, y. rewrite <- app_assoc. split; [auto|]. split; auto. econstructor; eauto. now constructor.
    + intros (q & g & y & -> & Hs & Hc). inversion Hs as [|? k' g' c q' ? Hc' Hs']; subst.
      * inversion Hc as [? j ? Hj|]; subst. exists j, x. auto.
      * inversion Hc' as [? j ? Hj|]; subst. exists j, c. split; auto. right. rewrite Forall_forall in IH. apply (IH c (nth_error_In _ _ Hj)).
        exists q', g, y. rewrite <- app_assoc. auto.
  - transitivity (exists j v, In (j, v) l /\ ((k, x, p) = (j, v, path ++ [PSKey j]) \/ In (k, x, p) (positions (path ++ [PSKey j]) v))).
    { clear IH. induction l as [|[j v] l IHl].
      - split; [intros []|intros (j & v & H & _); destruct H].
      - cbn [In]. rewrite in_app_iff, IHl. split.
        + intros [E|[H|(j' & w & Hj & H)]]; [exists j, v; split; auto..|exists j', w; auto].
        + intros (j' & w & [E|Hj] & H); [injection E as -> ->; destruct H; auto|right; right; eauto]. }
    split.
    + intros (j & v & Hj & [E|H]).
      * injection E as -> -> ->. exists [], (PSKey j), (JObj l). split; [auto|]. split; constructor; auto.
      * rewrite Forall_forall in IH. apply (IH (j, v) Hj) in H as (q & g & y & -> & Hs & Hc).
        exists (PSKey j :: q), g, y. rewrite <- app_assoc. split; [auto|]. split; auto. econstructor; eauto. now constructor.
    + intros (q & g & y & -> & Hs & Hc). inversion Hs as [|? k' g' c q' ? Hc' Hs']; subst.
      * inversion Hc as [|? j ? Hj]; subst. eauto.
      * inversion Hc' as [|? j ? Hj]; subst. exists k', c. split; auto. right. rewrite Forall_forall in IH. apply (IH (k', c) Hj).
        exists q', g, y. rewrite <- app_assoc. auto.
Qed.

(** ** A replacer without state *)
Lemma stateless_state {A} (rep : replacer) fuel : forall (s : A) v path,
  transform_children_state fuel (fun s k x p => (s, rep k x p)) s v path = option_map (pair s) (transform_children fuel rep v path).
Proof.
  induction fuel as [|fuel IH]; intros s v path; [reflexivity|]. cbn [transform_children_state transform_children].
  destruct v as [p|l|l]; [reflexivity| |].
  - enough (X : forall i, transform_items_state (transform_children_state fuel (fun s k x p => (s, rep k x p))) (fun s k x p => (s, rep k x p)) path s i l
       = option_map (pair s) (transform_items (transform_children fuel rep) rep path i l)).
    { rewrite X. now destruct (transform_items _ _ _ _ _). }
    induction l as [|v l IHl]; intros i; [reflexivity|]. rewrite sitems_cons, items_cons. destruct (rep _ _ _) as [x|]; auto.
    rewrite IH. destruct (transform_children _ _ _ _); [|reflexivity]. cbn [option_map]. rewrite IHl. now destruct (transform_items _ _ _ _ _).
  - enough (X : transform_entries_state (transform_children_state fuel (fun s k x p => (s, rep k x p))) (fun s k x p => (s, rep k x p)) path s l
       = option_map (pair s) (transform_entries (transform_children fuel rep) rep path l)).
    { rewrite X. now destruct (transform_entries _ _ _ _). }
    induction l as [|[k v] l IHl]; [reflexivity|]. rewrite sentries_cons, entries_cons. destruct (rep _ _ _) as [x|]; auto.
    rewrite IH. destruct (transform_children _ _ _ _); [|reflexivity]. cbn [option_map]. rewrite IHl. now destruct (transform_entries _ _ _ _).
Qed.

(** ** When it ends *)
Section Ends.
Context {A : Type}.
Variables (rep : A -> str -> json -> list path_segment -> A * option json) (limit : nat).
Hypothesis shrinks : forall s k x p s1 y, limit <= length p -> rep s k x p = (s1, Some y) -> nesting y <= nesting x.

Lemma ends_inside d : forall m path v s, limit - length path <= d -> nesting v <= m ->
  (forall path v s, S (length path) <= limit -> limit - length path < d ->
     exists qs w s', asked path v qs w /\ answers rep s qs s') ->
  exists qs w s', asked path v qs w /\ answers rep s qs s'.
Proof.
  induction m as [m IH] using lt_wf_ind. intros path v s Hd Hm Hs.
  (* below [path], at the segment [g] *)
  assert (B : forall g k x s s1 y, nesting x < nesting v -> rep s k x (path ++ [g]) = (s1, Some y) ->
            exists qs w s', asked (path ++ [g]) (normalize_json_value y) qs w /\ answers rep s1 qs s').
  { intros g k x s0 s1 y Hx E. destruct (Nat.leb_spec limit (length (path ++ [g]))) as [L|L].
    - apply shrinks in E; [|exact L]. apply (IH (nesting y) ltac:(lia)); [|rewrite norm_nesting; lia|auto].
      rewrite app_length in L |- *. cbn [length] in *. lia.
    - apply Hs; rewrite app_length in *; cbn [length] in *; lia. }
  destruct v as [p|l|l].
  - exists [], (JPrim p), s. split; constructor.
  - enough (X : forall l' i s, incl l' l -> exists qs m s', asked_items path i l' qs m /\ answers rep s qs s').
    { destruct (X l 0 s (incl_refl _)) as (qs & r & s' & H1 & H2). exists qs, (JArr r), s'. split; [now constructor|auto]. }
    intros l'. induction l' as [|x l' IHl]; intros i s0 Hi.
    + exists [], [], s0. split; constructor.
    + apply incl_cons_inv in Hi as [Hx Hi]. destruct (rep s0 (dec_of_N (N.of_nat i)) x (path ++ [PSIndex i])) as [s1 [y|]] eqn:E.
      * destruct (B (PSIndex i) (dec_of_N (N.of_nat i)) x s0 s1 y) as (q & w & s2 & Hq & Ha);
          [apply In_nth_error in Hx as [j Hj]; eapply (child_nesting (JArr l)), ch_arr, Hj|exact E|].
        destruct (IHl (S i) s2 Hi) as (qs & r & s3 & Hqs & Has).
        eexists _, (w :: r), s3. split; [eapply aki_keep; eauto using normalize_spec|]. econstructor; [exact E|]. apply answers_app. eauto.
      * destruct (IHl (S i) s1 Hi) as (qs & r & s3 & Hqs & Has). eexists _, r, s3. split; [eapply aki_drop; eauto|]. econstructor; eauto.
  - enough (X : forall l' s, incl l' l -> exists qs m s', asked_members path l' qs m /\ answers rep s qs s').
    { destruct (X l s (incl_refl _)) as (qs & r & s' & H1 & H2). exists qs, (JObj r), s'. split; [now constructor|auto]. }
    intros l'. induction l' as [|[k x] l' IHl]; intros s0 Hi.
    + exists [], [], s0. split; constructor.
    + apply incl_cons_inv in Hi as [Hx Hi]. destruct (rep s0 k x (path ++ [PSKey k])) as [s1 [y|]] eqn:E.
      * destruct (B (PSKey k) k x s0 s1 y) as (q & w & s2 & Hq & Ha); [eapply (child_nesting (JObj l)), ch_obj, Hx|exact E|].
        destruct (IHl s2 Hi) as (qs & r & s3 & Hqs & Has).
        eexists _, ((k, w) :: r), s3. split; [eapply akm_keep; eauto using normalize_spec|]. econstructor; [exact E|]. apply answers_app. eauto.
      * destruct (IHl s1 Hi) as (qs & r & s3 & Hqs & Has). eexists _, r, s3. split; [eapply akm_drop; eauto|]. econstructor; eauto.
Qed.
Lemma ends_below d : forall path v s, limit - length path <= d -> exists qs w s', asked path v qs w /\ answers rep s qs s'.
Proof.
  induction d as [|d IH]; intros path v s Hd; eapply ends_inside; eauto.
  - intros. lia.
  - intros path' v' s' Hl Hd'. apply IH. lia.
Qed.
Lemma ends_root v s : exists qs w s', asked_root v qs w /\ answers rep s qs s'.
Proof.
  destruct (rep s [] v []) as [s1 [y|]] eqn:E.
  - destruct (ends_below limit [] (normalize_json_value y) s1) as (qs & w & s' & H1 & H2); [cbn; lia|].
    eexists _, w, s'. split; [eapply ar_new; eauto using normalize_spec|econstructor; eauto].
  - destruct (ends_below limit [] v s1) as (qs & w & s' & H1 & H2); [cbn; lia|].
    eexists _, w, s'. split; [eapply ar_keep; eauto|econstructor; eauto].
Qed.
End Ends.
