(** Path expansion gathers the entries of the document (C48). *)
From Verif Require Import Chars Floats Json JsonInd Shared Folding EventBuilder Expand Lex Spec SpecRead SpecExpand
  DecRel ExpandProof ExpandProps.

Local Open Scope nat_scope.

Lemma below_app k a b : below k (a ++ b) = below k a ++ below k b. Proof. apply flat_map_app. Qed.
Lemma heads_app a b : heads (a ++ b) = heads a ++ heads b. Proof. apply flat_map_app. Qed.
Lemma below_same k X : below k (map (under [k]) X) = X.
Proof.
  induction X as [|[r x] X IH]; [reflexivity|]. cbn [map]. unfold below in *. cbn [flat_map under fst snd app].
  destruct (list_eq_dec N.eq_dec k k); [|congruence]. cbn [app]. now rewrite IH.
Qed.
Lemma below_other k k' X : k <> k' -> below k' (map (under [k]) X) = [].
Proof.
  intros H. induction X as [|[r x] X IH]; [reflexivity|]. cbn [map]. unfold below in *. cbn [flat_map under fst snd app].
  destruct (list_eq_dec N.eq_dec k k'); [congruence|]. exact IH.
Qed.
Lemma heads_under k X : heads (map (under [k]) X) = repeat k (length X).
Proof. induction X as [|e X IH]; [reflexivity|]. cbn. now rewrite <- IH. Qed.
Lemma below_fresh k l : ~ In k (heads l) -> below k l = [].
Proof.
  induction l as [|[[|k' r] x] l IH]; intros H; [reflexivity|apply IH; exact H|].
  unfold below, heads in *. cbn [flat_map fst snd app In] in *. destruct (list_eq_dec N.eq_dec k' k); [exfalso; auto|]. apply IH. tauto.
Qed.
Lemma heads_In k l : In k (heads l) <-> exists r x, In (k :: r, x) l.
Proof.
  unfold heads. rewrite in_flat_map. split.
  - intros ([[|k' r] x] & Hi & H); [destruct H|]. destruct H as [->|[]]. eauto.
  - intros (r & x & H). exists (k :: r, x). split; [exact H|now left].
Qed.
Lemma below_In k l r x : In (r, x) (below k l) <-> In (k :: r, x) l.
Proof.
  unfold below. rewrite in_flat_map. split.
  - intros ([[|k' r'] x'] & Hi & H); [destruct H|]. cbn [fst snd] in H. destruct (list_eq_dec N.eq_dec k' k) as [->|]; [|destruct H].
    destruct H as [H|[]]. injection H as -> ->. exact Hi.
  - intros H. exists (k :: r, x). split; [exact H|]. cbn [fst snd]. destruct (list_eq_dec N.eq_dec k k); [now left|congruence].
Qed.
Lemma under_cons k p X : map (under (k :: p)) X = map (under [k]) (map (under p) X).
Proof. rewrite map_map. apply map_ext. intros e. reflexivity. Qed.
Lemma under_nil X : map (under []) X = X.
Proof. rewrite <- (map_id X) at 2. apply map_ext. now intros [p x]. Qed.

Lemma firsts_In hs ks : firsts hs ks -> forall k, In k ks <-> In k hs.
Proof.
  induction 1 as [|hs ks k0 H IH N|hs ks k0 H IH N]; intros k; [tauto| |].
  - rewrite !in_app_iff, IH. cbn. tauto.
  - rewrite in_app_iff, IH. cbn. split; [tauto|]. intros [A|[->|[]]]; auto.
Qed.
Lemma firsts_NoDup hs ks : firsts hs ks -> NoDup ks.
Proof.
  induction 1 as [|hs ks k0 H IH N|hs ks k0 H IH N]; [constructor| |assumption].
  rewrite <- (rev_involutive (ks ++ [k0])). apply NoDup_rev. rewrite rev_app_distr. cbn [rev app].
  constructor; [|now apply NoDup_rev]. rewrite <- in_rev, (firsts_In _ _ H). exact N.
Qed.
Lemma firsts_fun hs ks : firsts hs ks -> forall ks', firsts hs ks' -> ks = ks'.
Proof.
  induction 1 as [|hs ks k0 H IH N|hs ks k0 H IH N]; intros ks' H'; inversion H' as [E|hs' ks1 k1 H1 N1 E|hs' ks1 k1 H1 N1 E];
    try (destruct hs; discriminate); try (destruct hs'; discriminate); subst; auto;
    apply app_inj_tail in E as [-> ->]; try contradiction.
  - now rewrite (IH _ H1).
  - now apply IH.
Qed.
Lemma firsts_again hs ks k n : firsts hs ks -> In k hs -> firsts (hs ++ repeat k n) ks.
Proof.
  revert hs. induction n as [|n IH]; intros hs H Hi; cbn [repeat]; [now rewrite app_nil_r|].
  change (k :: repeat k n) with ([k] ++ repeat k n). rewrite app_assoc. apply IH; [now apply fi_old|]. apply in_or_app. now left.
Qed.
Lemma firsts_more hs ks k n : firsts hs ks -> ~ In k hs -> 0 < n -> firsts (hs ++ repeat k n) (ks ++ [k]).
Proof.
  intros H N Hn. destruct n as [|n]; [lia|]. cbn [repeat]. change (k :: repeat k n) with ([k] ++ repeat k n).
  rewrite app_assoc. apply firsts_again; [now apply fi_new|]. apply in_or_app. right. now left.
Qed.

Lemma entries_nonempty v : entries v <> [].
Proof. destruct v; discriminate. Qed.
Lemma entries_leaf v : ~ is_object v -> entries v = [([], Some v)].
Proof. destruct v as [| |es]; try reflexivity. intros H. exfalso. apply H. now exists es. Qed.

Lemma gathers_nonempty strict l v : gathers strict l v -> l <> [].
Proof. destruct 1 as [l v O H|l0 l es H1 H2]; [now destruct l|]. destruct l0; [exact H2|discriminate]. Qed.

(** Leaves and the part after the last of them. *)
Definition base (strict : bool) (l0 : list entry) : Prop :=
  l0 = [] \/ strict = false /\ exists l1 v, l0 = l1 ++ [([], Some v)].
Definition noleaf (l : list entry) : Prop := forall v, ~ In ([], Some v) l.
Lemma noleaf_app a b : noleaf (a ++ b) <-> noleaf a /\ noleaf b.
Proof. unfold noleaf. split; [intros H; split; intros v Hv; apply (H v), in_or_app; auto|]. intros [H1 H2] v Hv. apply in_app_or in Hv as [Hv|Hv]; firstorder. Qed.

Lemma base_unique strict l0 l l0' l' : base strict l0 -> base strict l0' -> noleaf l -> noleaf l' -> l0 ++ l = l0' ++ l' -> l0 = l0' /\ l = l'.
Proof.
  intros B B' N N' E.
  assert (G : forall (m m' : list entry) v n n', noleaf n -> noleaf n' -> (exists y w, m' = y ++ [([], Some w)]) ->
    (m ++ [([], Some v)]) ++ n = m' ++ n' -> n = n').
  { intros m m' v n n' Hn Hn' (y & w & ->) E'. rewrite <- !app_assoc in E'. cbn [app] in E'.
    revert y w n n' Hn Hn' E'. induction m as [|a m IH]; intros y w n n' Hn Hn' E'; destruct y as [|b y]; cbn [app] in E'.
    - injection E' as _ ->. reflexivity.
    - injection E' as _ E'. exfalso. apply (Hn w). rewrite E'. apply in_or_app. right. now left.
    - injection E' as _ E'. exfalso. apply (Hn' v). rewrite <- E'. apply in_or_app. right. now left.
    - injection E' as _ E'. eapply IH; eauto. }
  destruct B as [->|(S & l1 & v & ->)], B' as [->|(S' & l1' & v' & ->)]; cbn [app] in E.
  - auto.
  - exfalso. apply (N v'). rewrite E. apply in_or_app. left. apply in_or_app. right. now left.
  - exfalso. apply (N' v). rewrite <- E. apply in_or_app. left. apply in_or_app. right. now left.
  - assert (l = l') by (eapply G; eauto). subst l'. apply app_inv_tail in E. auto.
Qed.

Lemma gathers_fun strict v : forall l v', gathers strict l v -> gathers strict l v' -> v = v'.
Proof.
  induction v using json_ind'; intros l' v' H1 H2.
  1,2: (inversion H1 as [l1 w O1 S E1|]; subst; inversion H2 as [l2 w' O2 S' E2|l0 l2 es B N1 N2 F G E2];
    [apply app_inj_tail in E2 as [_ E2]; congruence|];
    exfalso; destruct (exists_last N1) as (z & e & ->); rewrite app_assoc in E2; apply app_inj_tail in E2 as [_ ->];
    eapply N2; apply in_or_app; right; now left).
  inversion H1 as [l1 w O1 S E1|l0 l2 es B N1 N2 F G E1]; subst.
  - inversion H2 as [l2 w' O2 S' E2|l0 l2 es B N1 N2 F G E2]; [apply app_inj_tail in E2 as [_ E2]; congruence|].
    exfalso; destruct (exists_last N1) as (z & e & ->); rewrite app_assoc in E2; apply app_inj_tail in E2 as [_ ->].
    eapply N2; apply in_or_app; right; now left.
  - inversion H2 as [l3 w' O3 S' E2|l0' l3 es' B' N1' N2' F' G' E2]; subst.
    + exfalso; destruct (exists_last N1) as (z & e & ->); rewrite app_assoc in E2; apply app_inj_tail in E2 as [_ <-].
      eapply N2; apply in_or_app; right; now left.
    + destruct (base_unique strict l0 l2 l0' l3 B B' N2 N2' (eq_sym E2)) as [-> ->]. f_equal.
      pose proof (firsts_fun _ _ F _ F') as K. clear -H G G' K. revert es' G' K.
      induction G as [|[k x] es Hx G IH]; intros es' G' K; destruct es' as [|[k' x'] es']; try discriminate; [reflexivity|].
      cbn [map fst] in K. injection K as <- K. inversion G' as [|? ? Hx' G'']; subst. inversion H as [|? ? I1 I2]; subst.
      cbn [fst snd] in *. rewrite (I1 _ _ Hx Hx'). f_equal. now apply IH.
Qed.

(** * Insertion *)
Definition J := node_to_json.
Definition held (strict : bool) (l : list entry) (es : list (str * node)) : Prop :=
  noleaf l /\ firsts (heads l) (map fst es) /\ Forall (fun kv => gathers strict (below (fst kv) l) (J (snd kv))) es.

Lemma held_nil strict : held strict [] [].
Proof. split; [intros v []|]. split; [constructor|constructor]. Qed.
Lemma held_gathers strict l0 l es : base strict l0 -> l <> [] -> held strict l es -> gathers strict (l0 ++ l) (JObj (tojson es)).
Proof.
  intros B N (H1 & H2 & H3). apply ga_object; auto; [now rewrite tojson_keys|]. unfold tojson. apply Forall_map. exact H3.
Qed.
Lemma gathers_held strict L es : gathers strict L (JObj (tojson es)) ->
  exists l0 l, L = l0 ++ l /\ base strict l0 /\ l <> [] /\ held strict l es.
Proof.
  intros H. inversion H as [l1 w O1 S E1 E2|l0 l2 es' B N1 N2 F G E1 E2]; subst.
  - exfalso. apply O1. eexists. reflexivity.
  - exists l0, l2. repeat split; auto; [now rewrite tojson_keys in F|]. unfold tojson in G. now apply Forall_map in G.
Qed.
Lemma held_get strict l es k e : held strict l es -> entry_get es k = Some e -> gathers strict (below k l) (J e).
Proof. intros (_ & _ & H) E. apply entry_get_In in E. rewrite Forall_forall in H. exact (H _ E). Qed.
Lemma held_none strict l es k : held strict l es -> entry_get es k = None -> below k l = [] /\ ~ In k (heads l).
Proof.
  intros (_ & H & _) E. apply entry_get_None in E. rewrite (firsts_In _ _ H) in E. split; [now apply below_fresh|exact E].
Qed.
Lemma held_new strict l es k v X : held strict l es -> entry_get es k = None -> X <> [] -> gathers strict X (J v) ->
  held strict (l ++ map (under [k]) X) (es ++ [(k, v)]).
Proof.
  intros Hh E N G. destruct (held_none _ _ _ _ Hh E) as [Eb Hk]. destruct Hh as (H1 & H2 & H3). split; [|split].
  - apply noleaf_app. split; [exact H1|]. intros w Hw. apply in_map_iff in Hw as (? & Hw & _). discriminate.
  - rewrite heads_app, heads_under, map_app. cbn [map fst]. apply firsts_more; auto. destruct X; [congruence|cbn; lia].
  - apply Forall_app. split.
    + apply Forall_forall. intros [k' x] Hi. cbn [fst snd]. rewrite Forall_forall in H3. specialize (H3 _ Hi). cbn [fst snd] in H3.
      rewrite below_app, below_other, app_nil_r; [exact H3|]. intros ->. apply Hk, (firsts_In _ _ H2).
      apply in_map_iff. now exists (k', x).
    + constructor; [|constructor]. cbn [fst snd]. now rewrite below_app, Eb, below_same.
Qed.
Lemma held_set strict l es k e v X : held strict l es -> entry_get es k = Some e -> X <> [] -> gathers strict (below k l ++ X) (J v) ->
  held strict (l ++ map (under [k]) X) (entry_set es k v).
Proof.
  intros (H1 & H2 & H3) E N G.
  assert (Hk : In k (heads l)). { rewrite <- (firsts_In _ _ H2). apply in_map_iff. apply entry_get_In in E. now exists (k, e). }
  split; [|split].
  - apply noleaf_app. split; [exact H1|]. intros w Hw. apply in_map_iff in Hw as (? & Hw & _). discriminate.
  - rewrite heads_app, heads_under, entry_set_keys. now apply firsts_again.
  - pose proof (firsts_NoDup _ _ H2) as Nd. clear H1 H2 Hk. revert Nd E. induction H3 as [|[k' x] es Hx Hes IH]; intros Nd E; [discriminate|].
    cbn [map fst] in Nd. inversion Nd as [|? ? Nk Nd']; subst. cbn [entry_get entry_set] in *. destruct (str_eqb k' k) eqn:Q.
    + apply str_eqb_eq in Q as ->. constructor; [cbn [fst snd]; now rewrite below_app, below_same|].
      apply Forall_forall. intros [k' y] Hi. rewrite Forall_forall in Hes. specialize (Hes _ Hi). cbn [fst snd] in *.
      rewrite below_app, below_other, app_nil_r; [exact Hes|]. intros ->. apply Nk, in_map_iff. now exists (k', y).
    + constructor; [|now apply IH]. cbn [fst snd] in *. rewrite below_app, below_other, app_nil_r; [exact Hx|].
      intros ->. now rewrite str_eqb_refl in Q.
Qed.
Lemma held_object strict a b es : held strict (a ++ b) es -> held strict (a ++ ([], None) :: b) es.
Proof.
  intros (H1 & H2 & H3). split; [|split].
  - intros v Hv. apply (H1 v). apply in_app_or in Hv as [Hv|[Hv|Hv]]; [apply in_or_app; auto|discriminate|apply in_or_app; auto].
  - rewrite heads_app in *. exact H2.
  - eapply Forall_impl; [|exact H3]. intros kv H. cbv beta in H. rewrite below_app in H |- *. exact H.
Qed.

(** The entries of a value with distinct keys gather to it. *)
Definition inner (es : list (str * json)) : list entry := flat_map (fun kv => map (under [fst kv]) (entries (snd kv))) es.
Lemma entries_gather strict v : distinct_keys v -> gathers strict (entries v) v.
Proof.
  induction v using json_ind'; intros D; cbn [entries].
  - apply (ga_leaf strict [] (JPrim p)); [now intros (es & E)|reflexivity].
  - apply (ga_leaf strict [] (JArr l)); [now intros (es & E)|reflexivity].
  - inversion D as [| |? Dk Dv]; subst. apply (ga_object strict [] (([], None) :: inner l)); [now left|discriminate| | |].
    + intros v [E|Hi]; [discriminate|]. apply in_flat_map in Hi as (? & _ & Hi). apply in_map_iff in Hi as (? & Hi & _). discriminate.
    + change (heads (([], None) :: inner l)) with (heads (inner l)). clear -Dk. revert Dk.
      induction l as [|kv l IH] using rev_ind; intros Dk; [constructor|]. unfold inner in *. rewrite flat_map_app, heads_app, map_app.
      cbn [flat_map]. rewrite app_nil_r. cbn [map] in *. rewrite heads_under. rewrite map_app in Dk. cbn [map] in Dk.
      pose proof (NoDup_remove_1 _ _ _ Dk) as D1. pose proof (NoDup_remove_2 _ _ _ Dk) as D2. rewrite app_nil_r in D1, D2.
      apply firsts_more; [now apply IH| |pose proof (entries_nonempty (snd kv)); destruct (entries (snd kv)); [congruence|cbn; lia]].
      rewrite <- (firsts_In _ _ (IH D1)). exact D2.
    + apply Forall_forall. intros [k x] Hi. cbn [fst snd].
      assert (E : below k (([], None) :: inner l) = entries x).
      { change (below k (([], None) :: inner l)) with (below k (inner l)). clear -Dk Hi. induction l as [|[k' y] l IH]; [destruct Hi|].
        cbn [map fst] in Dk. inversion Dk as [|? ? Nk Dk']; subst. unfold inner in *. cbn [flat_map fst snd]. rewrite below_app.
        destruct Hi as [Hi|Hi].
        - injection Hi as -> ->. rewrite below_same, below_fresh, app_nil_r; [reflexivity|]. intros Hh. apply heads_In in Hh as (r & z & Hh).
          apply in_flat_map in Hh as ([k1 y1] & H1 & H2). apply in_map_iff in H2 as (? & H2 & _). injection H2 as -> _ _.
          apply Nk, in_map_iff. now exists (k, y1).
        - rewrite below_other, (IH Dk' Hi); [reflexivity|]. intros ->. apply Nk, in_map_iff. now exists (k, x). }
      rewrite E. rewrite Forall_forall in H, Dv. apply (H _ Hi), (Dv _ Hi).
Qed.

(** In strict mode a leaf is alone, and what is below a key gathers to something. *)
Lemma strict_alone l w v : gathers true l w -> In ([], Some v) l -> l = [([], Some v)].
Proof.
  intros H Hi. inversion H as [l1 x O1 S E1 E2|l0 l2 es B N1 N2 F G E1 E2]; subst.
  - rewrite (S eq_refl) in *. destruct Hi as [Hi|[]]. now rewrite Hi.
  - destruct B as [->|[B _]]; [|discriminate]. exfalso. exact (N2 _ Hi).
Qed.
Lemma strict_below l w k : gathers true l w -> In k (heads l) -> exists x, gathers true (below k l) x.
Proof.
  intros H Hi. inversion H as [l1 x O1 S E1 E2|l0 l2 es B N1 N2 F G E1 E2]; subst.
  - rewrite (S eq_refl) in Hi. destruct Hi.
  - destruct B as [->|[B _]]; [|discriminate]. cbn [app] in *. rewrite <- (firsts_In _ _ F) in Hi. apply in_map_iff in Hi as ([k' x] & <- & Hi).
    rewrite Forall_forall in G. exists x. exact (G _ Hi).
Qed.
Lemma lenient_more a v l w : gathers false l w -> gathers false ((a ++ [([], Some v)]) ++ l) w.
Proof.
  intros H. inversion H as [l1 x O1 S E1 E2|l0 l2 es B N1 N2 F G E1 E2]; subst.
  - rewrite app_assoc. apply ga_leaf; [assumption|discriminate].
  - rewrite app_assoc. apply ga_object; auto. right. split; [reflexivity|]. destruct B as [->|(_ & l1 & x & ->)].
    + exists a, v. now rewrite app_nil_r.
    + exists ((a ++ [([], Some v)]) ++ l1), x. now rewrite !app_assoc.
Qed.
Lemma gathers_leaf_last strict l v : gathers strict l v -> ~ is_object v -> exists l1, l = l1 ++ [([], Some v)] /\ (strict = true -> l1 = []).
Proof. intros H N. inversion H as [l1 x O1 S E1 E2|l0 l2 es B N1 N2 F G E1 E2]; subst; [eauto|]. exfalso. apply N. eexists. reflexivity. Qed.

(** Two entries that stand for different things at a place, not both for objects, do not gather. *)
Lemma shows_leaf r x k : k = shows r x -> k <> KObj -> exists v, r = [] /\ x = Some v /\ ~ is_object v.
Proof.
  intros -> H. destruct r; [|now destruct H]. destruct x as [[q|items|es]|]; cbn in H; try congruence; eexists; split; auto; split; auto; now intros (? & ?).
Qed.
Lemma stands_two l1 a l2 b l3 p left right w : gathers true (l1 ++ a :: l2 ++ b :: l3) w ->
  stands p a left -> stands p b right -> ~ (left = KObj /\ right = KObj) -> False.
Proof.
  intros G (r & Ea & Ka) (r' & Eb & Kb) N. revert l1 a l2 b l3 w G Ea Ka Eb Kb. induction p as [|k p IH]; intros l1 [qa xa] l2 [qb xb] l3 w G Ea Ka Eb Kb; cbn [fst snd app] in *.
  - subst qa qb. assert (H : left <> KObj \/ right <> KObj) by (destruct left, right; auto; try (left; discriminate); right; discriminate).
    assert (T : forall v, l1 ++ (r, xa) :: l2 ++ (r', xb) :: l3 <> [([], Some v)]) by (intros v T; destruct l1 as [|? [|]], l2; discriminate).
    destruct H as [H|H].
    + destruct (shows_leaf _ _ _ Ka H) as (v & -> & -> & _). apply strict_alone with (v := v) in G; [exact (T _ G)|]. apply in_or_app. right. now left.
    + destruct (shows_leaf _ _ _ Kb H) as (v & -> & -> & _). apply strict_alone with (v := v) in G; [exact (T _ G)|].
      apply in_or_app. right. right. apply in_or_app. right. now left.
  - subst qa qb. destruct (strict_below _ _ k G) as (x & Gx).
    { rewrite heads_app. apply in_or_app. right. now left. }
    assert (B : forall r x l, below k ((k :: r, x) :: l) = (r, x) :: below k l).
    { intros r0 x0 l. unfold below. cbn [flat_map fst snd]. destruct (list_eq_dec N.eq_dec k k); [reflexivity|congruence]. }
    rewrite below_app, B, below_app, B in Gx. now apply (IH _ (p ++ r, xa) _ (p ++ r', xb) _ _ Gx).
Qed.
Lemma clash_not old new p left right : clash old new p left right -> forall Y w, ~ gathers true (old ++ new ++ Y) w.
Proof.
  intros (a & n1 & b & n2 & -> & Ha & _ & Sa & Sb & N) Y w G. apply in_split in Ha as (u & v & E).
  rewrite <- app_assoc in G. cbn [app] in G. rewrite app_assoc, E in G. rewrite <- app_assoc in G. cbn [app] in G. exact (stands_two _ _ _ _ _ _ _ _ _ G Sa Sb N).
Qed.
Lemma two_In {A} (a b : A) l : In a l -> In b l -> a <> b -> (exists l1 l2 l3, l = l1 ++ a :: l2 ++ b :: l3) \/ (exists l1 l2 l3, l = l1 ++ b :: l2 ++ a :: l3).
Proof.
  intros Ha Hb N. apply in_split in Ha as (u & v & ->). apply in_app_or in Hb as [Hb|[Hb|Hb]]; [|congruence|].
  - apply in_split in Hb as (u1 & u2 & ->). right. exists u1, u2, v. now rewrite <- app_assoc.
  - apply in_split in Hb as (v1 & v2 & ->). left. eauto.
Qed.
Lemma stands_apart l a b p left right w : gathers true l w -> In a l -> In b l ->
  stands p a left -> stands p b right -> left <> right -> False.
Proof.
  intros G Ha Hb Sa Sb N. destruct (two_In a b l Ha Hb) as [(l1 & l2 & l3 & ->)|(l1 & l2 & l3 & ->)].
  - intros ->. destruct Sa as (r & E & ->), Sb as (r' & E' & ->). rewrite E in E'. apply app_inv_head in E'. subst. congruence.
  - eapply stands_two; eauto. intros [-> ->]. congruence.
  - eapply stands_two; eauto. intros [-> ->]. congruence.
Qed.
Lemma split_cases {A} (a : list A) x b a' x' b' : a ++ x :: b = a' ++ x' :: b' ->
  (exists t, a' = a ++ x :: t) \/ (a = a' /\ x = x' /\ b = b') \/ (exists t, a = a' ++ x' :: t).
Proof.
  revert a'. induction a as [|y a IH]; intros [|y' a'] E; cbn in E; injection E as -> E; subst; auto.
  - left. now exists a'.
  - right. right. now exists a.
  - destruct (IH _ E) as [(t & ->)|[(-> & -> & ->)|(t & ->)]]; [left; now exists t|auto|right; right; now exists t].
Qed.
(** A clash is unique. *)
Lemma clash_fun old new p left right p' left' right' : clash old new p left right -> clash old new p' left' right' ->
  p = p' /\ left = left' /\ right = right'.
Proof.
  intros (a & n1 & b & n2 & E & Ha & (w & G) & Sa & Sb & N) (a' & n1' & b' & n2' & E' & Ha' & (w' & G') & Sa' & Sb' & N'). rewrite E in E'. clear E.
  assert (T : forall a n1 b n2 a' n1' b' n2' p left right w, n1 ++ b :: n2 = n1' ++ b' :: n2' -> In a (old ++ n1) -> In a' (old ++ n1') ->
    gathers true (old ++ n1') w -> stands p a left -> stands p b right -> ~ (left = KObj /\ right = KObj) -> length n1 < length n1' -> False).
  { clear. intros a n1 b n2 a' n1' b' n2' p left right w E Ha _ G Sa Sb N L. revert n1' E G L.
    intros n1' E G L. assert (D : exists t, n1' = n1 ++ b :: t).
    { clear -E L. revert n1' E L. induction n1 as [|x n1 IH]; intros [|y n1'] E L; cbn in *; try lia; injection E as -> E; [eauto|].
      destruct (IH _ E ltac:(lia)) as (t & ->). eauto. }
    destruct D as (t & ->). apply in_split in Ha as (u & v & Eu). rewrite app_assoc, Eu, <- app_assoc in G. cbn [app] in G. exact (stands_two _ _ _ _ _ _ _ _ _ G Sa Sb N). }
  assert (L : length n1 = length n1').
  { destruct (Nat.lt_trichotomy (length n1) (length n1')) as [L|[L|L]]; [exfalso; eapply (T a n1 b n2 a' n1' b' n2'); eauto|exact L|exfalso; eapply (T a' n1' b' n2' a n1 b n2); eauto]. }
  apply split_cases in E' as [(t & ->)|[(-> & -> & ->)|(t & ->)]]; [rewrite app_length in L; cbn in L; lia| |rewrite app_length in L; cbn in L; lia]. clear G' w' T L.
  assert (P : forall p q a a' left left' right right', In a (old ++ n1') -> In a' (old ++ n1') -> stands p a left -> stands p b' right -> ~ (left = KObj /\ right = KObj) ->
    stands (p ++ q) a' left' -> stands (p ++ q) b' right' -> q = [] /\ left = left' /\ right = right').
  { clear -G. intros p q a a' left left' right right' Ha Ha' Sa (r & Er & Kr) N (s & Es & Ks) (r' & Er' & Kr'). rewrite Er, <- app_assoc in Er'. apply app_inv_head in Er'. subst r.
    assert (Sa' : stands p a' (shows (q ++ s) (snd a'))) by (exists (q ++ s); rewrite app_assoc; auto).
    assert (Q : left = shows (q ++ s) (snd a')).
    { assert (D : {left = shows (q ++ s) (snd a')} + {left <> shows (q ++ s) (snd a')}) by decide equality. destruct D as [D|D]; [exact D|].
      exfalso. exact (stands_apart _ _ _ _ _ _ _ G Ha Ha' Sa Sa' D). }
    destruct q as [|k q]; cbn [app] in *; [|exfalso; apply N; split; [exact Q|exact Kr]]. split; [reflexivity|]. split; congruence. }
  assert (Pr : (exists q, p' = p ++ q) \/ (exists q, p = p' ++ q)).
  { destruct Sb as (r & Er & _), Sb' as (r' & Er' & _). rewrite Er in Er'. clear -Er'. revert p' Er'.
    induction p as [|k p IH]; intros [|k' p'] E; cbn in *; [left; now exists []|left; now exists (k' :: p')|right; now exists (k :: p)|].
    injection E as -> E. destruct (IH _ E) as [(q & ->)|(q & ->)]; [left|right]; now exists q. }
  destruct Pr as [(q & ->)|(q & ->)].
  - destruct (P p q a a' left left' right right') as (-> & -> & ->); auto. now rewrite app_nil_r.
  - destruct (P p' q a' a left' left right' right) as (-> & -> & ->); auto. now rewrite app_nil_r.
Qed.

(** What an insertion does to the entries. *)
Definition clashes (l N : list entry) (p : list str) (left right : nkind) : Prop :=
  exists a n1 b n2, N = n1 ++ b :: n2 /\ In a (l ++ n1) /\ (exists es, held true (l ++ n1) es) /\
    stands p a left /\ stands p b right /\ ~ (left = KObj /\ right = KObj).
Lemma clashes_clash l N p left right : clashes l N p left right -> clash l N p left right.
Proof.
  intros (a & n1 & b & n2 & E & Ha & (es & H) & S). exists a, n1, b, n2. split; [exact E|]. split; [exact Ha|]. split; [|exact S].
  exists (JObj (tojson es)). apply (held_gathers true [] (l ++ n1) es); [now left| |exact H]. intros X. rewrite X in Ha. destruct Ha.
Qed.
Definition outcome (strict : bool) (m : nat) (l N : list entry) (r : result (list (str * node))) : Prop :=
  match r with
  | Ok m => held strict (l ++ N) m
  | Err EExpandDepth => True
  | Err (EExpandConflict c) => strict = true /\ exists p left right, p <> [] /\ clashes l N p left right /\ c = named m p left right
  | Err _ => False
  end.

Lemma kind_J e : node_kind e = match J e with JPrim _ => KPrim | JArr _ => KArr | JObj _ => KObj end.
Proof. now destruct e. Qed.
Lemma kind_leaf e : ~ is_object (J e) -> node_kind e = shows [] (Some (J e)) /\ node_kind e <> KObj.
Proof. intros O. destruct e; cbn in *; try (split; [reflexivity|discriminate]). exfalso. apply O. eexists. reflexivity. Qed.
(** Something among the entries of a gathered value is what the value is. *)
Lemma gathered_kind l e : gathers true l (J e) -> exists r x, In (r, x) l /\ node_kind e = shows r x.
Proof.
  intros G. pose proof (gathers_nonempty _ _ _ G) as N. destruct e as [q|items|eo eq].
  - destruct (gathers_leaf_last _ _ _ G) as (l1 & -> & S); [now intros (? & ?)|]. exists [], (Some (JPrim q)). split; [apply in_or_app; right; now left|reflexivity].
  - destruct (gathers_leaf_last _ _ _ G) as (l1 & -> & S); [now intros (? & ?)|]. exists [], (Some (J (NArr items))). split; [apply in_or_app; right; now left|reflexivity].
  - apply gathers_held in G as (l0 & l' & -> & [->|[B _]] & N' & (H1 & _)); [|discriminate]. destruct l' as [|[r x] l']; [congruence|]. exists r, x. split; [now left|].
    destruct r; [|reflexivity]. destruct x as [v|]; [|reflexivity]. exfalso. apply (H1 v). now left.
Qed.
Lemma in_below k l r x : In (r, x) (below k l) -> In (k :: r, x) l.
Proof. apply below_In. Qed.
(** A clash below a key is one of the whole. *)
Lemma stands_under k p e kd : stands p e kd -> stands (k :: p) (under [k] e) kd.
Proof. intros (r & E & K). exists r. cbn. rewrite E. auto. Qed.
Lemma clashes_under k l l' X p left right :
  (forall e, In e l' -> In (under [k] e) l) -> (exists es, held true l es) ->
  (forall n1 n2 es, X = n1 ++ n2 -> n1 <> [] -> held true (l' ++ n1) es -> exists es', held true (l ++ map (under [k]) n1) es') ->
  clashes l' X p left right -> clashes l (map (under [k]) X) (k :: p) left right.
Proof.
  intros Hl (es0 & H0) Hn (a & n1 & b & n2 & E & Ha & (es & H) & Sa & Sb & N).
  exists (under [k] a), (map (under [k]) n1), (under [k] b), (map (under [k]) n2). split; [now rewrite E, map_app|].
  split; [|split; [|split; [now apply stands_under|split; [now apply stands_under|exact N]]]].
  - apply in_app_or in Ha as [Ha|Ha]; apply in_or_app; [left; auto|right; now apply in_map].
  - destruct n1 as [|e n1]; [exists es0; cbn; now rewrite app_nil_r|]. eapply Hn; [exact E|discriminate|exact H].
Qed.
Lemma named_under k m p left right : p <> [] -> named (S m) (k :: p) left right = named m p left right.
Proof.
  intros Np. unfold named. destruct p as [|k2 p]; [congruence|]. change (length (k :: k2 :: p)) with (S (length (k2 :: p))).
  change (last (k :: k2 :: p) []) with (last (k2 :: p) []). destruct (Nat.ltb_spec (length (k2 :: p)) m), (Nat.ltb_spec (S (length (k2 :: p))) (S m)); try lia; reflexivity.
Qed.
Lemma named_key k p left right : p <> [] -> named 1 (k :: p) left right = named 1 p left right.
Proof. intros Np. unfold named. destruct p as [|k2 p]; [congruence|]. reflexivity. Qed.

(** A value for a key that exists, when one of the two is no object. *)
Lemma outcome_clash strict l es k e v : held strict l es -> entry_get es k = Some e -> uniq v ->
  ~ is_object (J e) \/ ~ is_object (J v) ->
  outcome strict 1 l (map (under [k]) (entries (J v)))
    (if strict then Err (EExpandConflict (CKey k (node_kind e) (node_kind v))) else Ok (entry_set es k v)).
Proof.
  intros Hh E U O. pose proof (held_get _ _ _ _ _ Hh E) as G. destruct strict; cbn [outcome].
  - split; [reflexivity|]. exists [k], (node_kind e), (node_kind v). split; [discriminate|]. split; [|reflexivity].
    destruct (gathered_kind _ _ G) as (r & x & Hi & Ke). apply in_below in Hi.
    assert (Ne : exists x n2, entries (J v) = ([], x) :: n2 /\ node_kind v = shows [] x).
    { destruct v; cbn; eexists _, _; split; reflexivity. }
    destruct Ne as (x' & n2 & En & Kv). rewrite En.
    exists (k :: r, x), [], ([k], x'), (map (under [k]) n2). split; [reflexivity|]. rewrite app_nil_r. split; [exact Hi|].
    split; [now exists es|]. split; [exists r; auto|]. split; [exists []; auto|].
    intros [K1 K2]. destruct O as [O|O]; apply kind_leaf in O as [_ O]; congruence.
  - apply (held_set false l es k e v (entries (J v)) Hh E (entries_nonempty _)).
    destruct O as [O|O].
    + destruct (gathers_leaf_last _ _ _ G O) as (l1 & -> & _). apply lenient_more. now apply entries_gather.
    + rewrite (entries_leaf _ O). apply ga_leaf; [exact O|discriminate].
Qed.

Lemma outcome_bind strict m l N1 N2 r f : outcome strict m l N1 r ->
  (forall x, r = Ok x -> held strict (l ++ N1) x -> outcome strict m (l ++ N1) N2 (f x)) ->
  outcome strict m l (N1 ++ N2) (bind r f).
Proof.
  intros H1 H2. destruct r as [x|e]; cbn [bind].
  - specialize (H2 x eq_refl H1). destruct (f x) as [x'|e']; cbn [outcome] in *; [now rewrite app_assoc|].
    destruct e'; try exact H2. destruct H2 as (S & p & L & R & Np & (a & n1 & b & n2 & E & Ha & He & H) & Ec). split; [exact S|].
    exists p, L, R. split; [exact Np|]. split; [|exact Ec]. exists a, (N1 ++ n1), b, n2. rewrite <- !app_assoc in *. split; [now rewrite E|]. auto.
  - destruct e; try exact H1. destruct H1 as (S & p & L & R & Np & (a & n1 & b & n2 & E & Ha & He & H) & Ec). split; [exact S|].
    exists p, L, R. split; [exact Np|]. split; [|exact Ec]. exists a, n1, b, (n2 ++ N2). split; [now rewrite E, <- app_assoc|]. auto.
Qed.
Lemma outcome_nil strict m l es : held strict l es -> outcome strict m l [] (Ok es).
Proof. intros H. cbn. now rewrite app_nil_r. Qed.
Definition merges (n : nat) : Prop := forall strict l t s, held strict l t -> uniq_es s ->
  outcome strict 1 l (inner (tojson s)) (merge_objects n strict t s).
(** A value for one key. *)
Definition put (n : nat) (strict : bool) (es : list (str * node)) (k : str) (v : node) : result (list (str * node)) :=
  match entry_get es k with
  | None => Ok (es ++ [(k, v)])
  | Some existing =>
      match existing, v with
      | NObj eo eq, NObj so _ => let? m := merge_objects n strict eo so in Ok (entry_set es k (NObj m eq))
      | _, _ => if strict then Err (EExpandConflict (CKey k (node_kind existing) (node_kind v))) else Ok (entry_set es k v)
      end
  end.
Lemma put_outcome n : merges n -> forall strict l es k v, held strict l es -> uniq v ->
  outcome strict 1 l (map (under [k]) (entries (J v))) (put n strict es k v).
Proof.
  intros IH strict l es k v Hh U. unfold put. destruct (entry_get es k) as [e|] eqn:E.
  2: { cbn [outcome]. apply held_new; auto using entries_nonempty. now apply entries_gather. }
  assert (C : ~ is_object (J e) \/ ~ is_object (J v) ->
    outcome strict 1 l (map (under [k]) (entries (J v)))
      (if strict then Err (EExpandConflict (CKey k (node_kind e) (node_kind v))) else Ok (entry_set es k v)))
    by (intros; eapply outcome_clash; eauto).
  destruct e as [p|items|eo eq]; try (apply C; left; now intros (? & ?)).
  destruct v as [p|items|so sq]; try (apply C; right; now intros (? & ?)). clear C.
  pose proof (held_get _ _ _ _ _ Hh E) as G. apply gathers_held in G as (l0 & l' & Eb & B & N & Hl').
  apply uniq_obj in U. pose proof (IH strict l' eo so Hl' U) as O.
  change (entries (J (NObj so sq))) with (([], None) :: inner (tojson so)).
  destruct (merge_objects n strict eo so) as [m|e] eqn:Em; cbn [bind].
  - cbn [outcome] in O. cbn [outcome]. eapply held_set; [exact Hh|exact E|discriminate|]. rewrite Eb, <- app_assoc.
    apply (held_gathers strict l0 _ m); [exact B|now destruct l'|]. now apply held_object.
  - destruct e; try exact O. destruct O as (-> & p & L & R & Np & Cl & ->). split; [reflexivity|].
    exists (k :: p), L, R. split; [discriminate|]. split; [|symmetry; now apply named_key].
    destruct B as [->|[B _]]; [|discriminate]. cbn [app] in Eb.
    destruct Cl as (a & n1 & b & n2 & En & Ha & (es1 & He) & Sa & Sb & Nk).
    exists (under [k] a), (map (under [k]) (([], None) :: n1)), (under [k] b), (map (under [k]) n2).
    split; [rewrite En; cbn [map app]; now rewrite map_app|]. split; [|split; [|split; [now apply stands_under|split; [now apply stands_under|exact Nk]]]].
    + apply in_app_or in Ha as [Ha|Ha]; apply in_or_app; [left|right; cbn [map]; right; now apply in_map].
      destruct a as [r x]. apply in_below. now rewrite Eb.
    + exists (entry_set es k (NObj es1 [])). eapply held_set; [exact Hh|exact E|discriminate|]. rewrite Eb.
      apply (held_gathers true [] _ es1); [now left|now destruct l'|]. now apply held_object.
Qed.
Lemma merge_go_put n strict t k v r : merge_go n strict t ((k, v) :: r) = (let? t' := put n strict t k v in merge_go n strict t' r).
Proof.
  cbn [merge_go]. unfold put. destruct (entry_get t k) as [e|]; [|reflexivity].
  destruct e as [p|items|eo eq]; try (now destruct strict). destruct v as [p|items|so sq]; try (now destruct strict).
  now destruct (merge_objects n strict eo so).
Qed.
Lemma merge_outcome n : merges n.
Proof.
  induction n as [|n IH]; intros strict l t s Hh U; [exact I|]. rewrite merge_objects_S.
  revert l t Hh. induction s as [|[k v] s IHs]; intros l t Hh; [now apply outcome_nil|].
  rewrite merge_go_put. change (inner (tojson ((k, v) :: s))) with (map (under [k]) (entries (J v)) ++ inner (tojson s)).
  destruct U as [U1 U2]. cbn [map fst] in U1. inversion U1; subst. inversion U2; subst.
  apply outcome_bind; [now apply put_outcome|]. intros m _ Hm. apply IHs; [|exact Hm]. now split.
Qed.
Lemma insert_literal_outcome n strict l es k v : held strict l es -> uniq v ->
  outcome strict 1 l (map (under [k]) (entries (J v))) (insert_literal_entry n strict es k v).
Proof. intros Hh U. destruct n as [|n]; [exact I|]. apply (put_outcome n (merge_outcome n) strict l es k v Hh U). Qed.

Lemma insert_path_outcome n : forall strict l es p v, p <> [] -> held strict l es -> uniq v ->
  outcome strict (length p) l (map (under p) (entries (J v))) (insert_path_entries n strict es p v).
Proof.
  induction n as [|n IH]; intros strict l es p v Np Hh U; [exact I|]. cbn [insert_path_entries].
  destruct p as [|k [|k2 p]]; [congruence|now apply insert_literal_outcome|].
  rewrite under_cons. change (length (k :: k2 :: p)) with (S (length (k2 :: p))). set (p' := k2 :: p) in *. assert (Np' : p' <> []) by discriminate. clearbody p'.
  set (X := map (under p') (entries (J v))).
  assert (NX : X <> []) by (unfold X; pose proof (entries_nonempty (J v)); destruct (entries (J v)); [congruence|discriminate]).
  destruct (entry_get es k) as [e|] eqn:E.
  - pose proof (held_get _ _ _ _ _ Hh E) as G.
    assert (C : ~ is_object (J e) -> outcome strict (S (length p')) l (map (under [k]) X)
      (if strict then Err (EExpandConflict (CSegment k (node_kind e)))
       else let? m := insert_path_entries n strict [] p' v in Ok (entry_set es k (NObj m [])))).
    { intros O. destruct (gathers_leaf_last _ _ _ G O) as (l1 & El & S). destruct strict.
      - split; [reflexivity|]. exists [k], (node_kind e), KObj. split; [discriminate|]. split; [|destruct p'; [congruence|reflexivity]].
        destruct X as [|[q x] X'] eqn:EX; [congruence|]. exists ([k], Some (J e)), [], (under [k] (q, x)), (map (under [k]) X').
        split; [reflexivity|]. rewrite app_nil_r. split; [apply in_below; rewrite El; apply in_or_app; right; now left|].
        split; [now exists es|]. destruct (kind_leaf _ O) as [K1 K2]. split; [exists []; auto|]. split; [|now intros [? _]].
        exists q. split; [reflexivity|]. assert (Hq : q <> []).
        { unfold X in EX. destruct (entries (J v)) as [|[q0 x0] ?]; [discriminate|]. cbn [map under fst snd] in EX. injection EX as <- _ _. destruct p'; [congruence|discriminate]. }
        cbn [under snd]. destruct q; [congruence|reflexivity].
      - pose proof (IH false [] [] p' v Np' (held_nil false) U) as O2. fold X in O2.
        destruct (insert_path_entries n false [] p' v) as [m|e']; cbn [bind].
        + cbn [outcome app] in *. eapply held_set; [exact Hh|exact E|exact NX|]. apply (held_gathers false (below k l) X m); [|exact NX|exact O2].
          right. split; [reflexivity|]. eauto.
        + destruct e'; try exact O2. destruct O2; discriminate. }
    destruct e as [q|items|eo eq]; try (apply C; now intros (? & ?)). clear C.
    apply gathers_held in G as (l0 & l' & Eb & B & N & Hl'). pose proof (IH strict l' eo p' v Np' Hl' U) as O. fold X in O.
    destruct (insert_path_entries n strict eo p' v) as [m|e']; cbn [bind].
    + cbn [outcome] in *. eapply held_set; [exact Hh|exact E|exact NX|]. rewrite Eb, <- app_assoc.
      apply (held_gathers strict l0 _ m); [exact B|now destruct l'|exact O].
    + destruct e'; try exact O. destruct O as (-> & pc & L & R & Nq & Cl & ->). split; [reflexivity|].
      exists (k :: pc), L, R. split; [discriminate|]. split; [|symmetry; now apply named_under].
      destruct B as [->|[B _]]; [|discriminate]. cbn [app] in Eb. apply (clashes_under k l l'); [| |intros n1 n2 es1 _ N1 H1|exact Cl].
      * intros [r x] Hi. apply in_below. now rewrite Eb.
      * now exists es.
      * exists (entry_set es k (NObj es1 [])). eapply held_set; [exact Hh|exact E|exact N1|]. rewrite Eb.
        apply (held_gathers true [] _ es1); [now left|now destruct l'|exact H1].
  - pose proof (IH strict [] [] p' v Np' (held_nil strict) U) as O. fold X in O.
    destruct (held_none _ _ _ _ Hh E) as [Eb Hk].
    destruct (insert_path_entries n strict [] p' v) as [m|e']; cbn [bind].
    + cbn [outcome app] in *. apply held_new; [exact Hh|exact E|exact NX|]. apply (held_gathers strict [] X m); [now left|exact NX|exact O].
    + destruct e'; try exact O. destruct O as (-> & pc & L & R & Nq & Cl & ->). split; [reflexivity|].
      exists (k :: pc), L, R. split; [discriminate|]. split; [|symmetry; now apply named_under].
      apply (clashes_under k l []); [intros ? []|now exists es|intros n1 n2 es1 _ N1 H1|exact Cl].
      exists (es ++ [(k, NObj es1 [])]). apply held_new; [exact Hh|exact E|exact N1|]. apply (held_gathers true [] n1 es1); [now left|exact N1|exact H1].
Qed.
Lemma insert_entry_outcome n strict quoted l es k v : held strict l es -> uniq v ->
  outcome strict (length (path_of k quoted)) l (map (under (path_of k quoted)) (entries (J v))) (insert_entry n strict quoted es k v).
Proof.
  intros Hh U. unfold insert_entry, path_of. destruct (expandable k quoted).
  - apply insert_path_outcome; auto. apply split_on_not_nil.
  - now apply insert_literal_outcome.
Qed.

(** * Whole documents *)
Lemma key_path_fun ms k p p' : key_path ms k p -> key_path ms k p' -> p = p'.
Proof. intros H H'. apply (key_path_of ms k _ _ eq_refl) in H as ->. apply (key_path_of ms k _ _ eq_refl) in H' as ->. reflexivity. Qed.
Lemma expands_fun strict d : forall v v', expands strict d v -> expands strict d v' -> v = v'.
Proof.
  induction d using doc_ind'; intros v v' H1 H2; inversion H1; inversion H2; subst; [reflexivity| |].
  - f_equal. match goal with A : Forall2 _ l ?x, B : Forall2 _ l ?y |- _ => rename A into F1, B into F2 end. clear H1 H2.
    revert m0 F2. induction F1 as [|a b l m Ha F1 IH]; intros m0 F2; inversion F2; subst; [reflexivity|].
    inversion H; subst. f_equal; [eauto|]. now apply IH.
  - match goal with A : Forall2 _ l ?x, B : Forall2 _ l ?y |- _ => rename A into F1, B into F2; assert (E : x = y) end.
    { clear -H F1 F2. revert F1 F2. generalize l at 1 3. intros ms. intros F1. revert ls0.
      induction F1 as [|a b l m (p & x & K & X & ->) F1 IH]; intros ls0 F2; inversion F2 as [|? ? ? ? (p' & x' & K' & X' & ->)]; subst; [reflexivity|].
      inversion H as [|? ? Ha Hl]; subst. rewrite (key_path_fun _ _ _ _ K K'), (Ha _ _ X X'). f_equal. now apply IH. }
    subst. eapply gathers_fun; eassumption.
Qed.

(** A document has one first conflict or an expansion, not both. *)
Lemma Forall2_snoc_split {A B} (P : A -> B -> Prop) a x b l : Forall2 P (a ++ x :: b) l ->
  exists l1 y l2, l = l1 ++ y :: l2 /\ Forall2 P a l1 /\ P x y /\ Forall2 P b l2.
Proof.
  intros F. apply Forall2_app_inv_l in F as (l1 & l2 & F1 & F2 & ->). inversion F2; subst. eauto 10.
Qed.
Lemma member_entries_fun ms m l l' : member_entries ms m l -> member_entries ms m l' -> l = l'.
Proof. intros (p & x & K & X & ->) (p' & x' & K' & X' & ->). now rewrite (key_path_fun _ _ _ _ K K'), (expands_fun _ _ _ _ X X'). Qed.
Lemma members_entries_fun ms a l : Forall2 (member_entries ms) a l -> forall l', Forall2 (member_entries ms) a l' -> l = l'.
Proof.
  induction 1 as [|m x a l Hm _ IH]; intros l' F; inversion F; subst; [reflexivity|]. f_equal; [eapply member_entries_fun; eauto|auto].
Qed.
Lemma conflicts_not d c : conflicts d c -> forall v, ~ expands true d v.
Proof.
  induction 1 as [before d after c _ _ IH|ms before m after ls v c E F G _ IH|ms before m after ls p x q left right v E F G K X C]; intros w W;
    inversion W as [|? ? F2|? ls' ? F2 G2]; subst.
  - apply Forall2_snoc_split in F2 as (? & y & ? & _ & _ & Hy & _). exact (IH _ Hy).
  - apply Forall2_snoc_split in F2 as (? & y & ? & _ & _ & (p & x & _ & Hx & _) & _). exact (IH _ Hx).
  - apply Forall2_snoc_split in F2 as (l1 & y & l2 & -> & F1 & (p' & x' & K' & X' & ->) & _).
    rewrite <- (members_entries_fun _ _ _ F _ F1) in G2. rewrite (key_path_fun _ _ _ _ K' K), (expands_fun _ _ _ _ X' X) in G2.
    rewrite concat_app in G2. cbn [concat] in G2. rewrite app_comm_cons in G2. exact (clash_not _ _ _ _ _ C _ _ G2).
Qed.
(** At a member that is in conflict, no more members expand and gather. *)
Definition blocked (ms : list (str * bool * doc)) (before : list (str * bool * doc)) (m : str * bool * doc) : Prop :=
  forall ls v after, Forall2 (member_entries ms) (before ++ m :: after) ls -> ~ gathers true (([], None) :: concat ls) v.
Lemma blocked_inside ms before m c : conflicts (snd m) c -> blocked ms before m.
Proof. intros C ls v after F _. apply Forall2_snoc_split in F as (? & y & ? & _ & _ & (p & x & _ & X & _) & _). exact (conflicts_not _ _ C _ X). Qed.
Lemma blocked_between ms before m ls p x q left right : Forall2 (member_entries ms) before ls -> key_path ms (fst (fst m)) p ->
  expands true (snd m) x -> clash (([], None) :: concat ls) (map (under p) (entries x)) q left right -> blocked ms before m.
Proof.
  intros F K X C ls' v after F' G. apply Forall2_snoc_split in F' as (l1 & y & l2 & -> & F1 & (p' & x' & K' & X' & ->) & _).
  rewrite <- (members_entries_fun _ _ _ F _ F1) in G. rewrite (key_path_fun _ _ _ _ K' K), (expands_fun _ _ _ _ X' X) in G.
  rewrite concat_app in G. cbn [concat] in G. rewrite app_comm_cons in G. exact (clash_not _ _ _ _ _ C _ _ G).
Qed.
Lemma conflicts_fun d c : conflicts d c -> forall c', conflicts d c' -> c = c'.
Proof.
  induction 1 as [before d after c B C IH|ms before m after ls v c E F G C IH|ms before m after ls p x q left right v E F G K X C]; intros c' C';
    inversion C' as [before' d' after' ? B' D'|? before' m' after' ls' v' ? E' F' G' D'|? before' m' after' ls' p' x' q' left' right' v' E' F' G' K' X' D']; subst.
  - match goal with H : before' ++ _ = _ |- _ => rename H into E end.
    apply split_cases in E as [(t & ->)|[(-> & -> & ->)|(t & ->)]].
    + exfalso. apply Forall_app in B as [_ B]. inversion B as [|? ? (w & W)]; subst. exact (conflicts_not _ _ D' _ W).
    + now apply IH.
    + exfalso. apply Forall_app in B' as [_ B']. inversion B' as [|? ? (w & W)]; subst. exact (conflicts_not _ _ C _ W).
  - pose proof (blocked_inside (before' ++ m' :: after') before' m' _ D') as Bl'. pose proof (blocked_inside (before' ++ m' :: after') before m _ C) as Bl.
    pose proof E' as Es. apply split_cases in E' as [(t & ->)|[(-> & -> & ->)|(t & ->)]]; [exfalso|now apply IH|exfalso].
    + rewrite Es in *. eapply Bl; eauto.
    + rewrite Es in *. eapply Bl'; eauto.
  - rewrite E' in *. pose proof (blocked_between _ _ _ _ _ _ _ _ _ F' K' X' D') as Bl'. pose proof (blocked_inside (before' ++ m' :: after') before m _ C) as Bl.
    apply split_cases in E' as [(t & ->)|[(-> & -> & ->)|(t & ->)]]; exfalso; [eapply Bl; eauto|exact (conflicts_not _ _ C _ X')|eapply Bl'; eauto].
  - rewrite E' in *. pose proof (blocked_between _ _ _ _ _ _ _ _ _ F K X C) as Bl. pose proof (blocked_inside (before' ++ m' :: after') before' m' _ D') as Bl'.
    apply split_cases in E' as [(t & ->)|[(-> & -> & ->)|(t & ->)]]; exfalso; [eapply Bl; eauto|exact (conflicts_not _ _ D' _ X)|eapply Bl'; eauto].
  - rewrite E' in *. pose proof (blocked_between _ _ _ _ _ _ _ _ _ F K X C) as Bl. pose proof (blocked_between _ _ _ _ _ _ _ _ _ F' K' X' D') as Bl'.
    apply split_cases in E' as [(t & ->)|[(-> & -> & ->)|(t & ->)]]; [exfalso; eapply Bl; eauto| |exfalso; eapply Bl'; eauto].
    rewrite (members_entries_fun _ _ _ F _ F') in C. rewrite (key_path_fun _ _ _ _ K K'), (expands_fun _ _ _ _ X X') in C.
    destruct (clash_fun _ _ _ _ _ _ _ _ C D') as (-> & -> & ->). now rewrite (key_path_fun _ _ _ _ K K').
Qed.

Definition verdict (strict : bool) (d : doc) (r : result node) : Prop :=
  match r with
  | Ok w => expands strict d (J w)
  | Err EExpandDepth => True
  | Err (EExpandConflict c) => strict = true /\ conflicts d c
  | Err _ => False
  end.

Section Members.
Variables (strict : bool) (n : nat) (ms : list (str * bool * doc)) (quoted : list str).
Hypothesis Hq : quoted = rev (map (fun m : str * bool * doc => fst (fst m)) (filter (fun m => snd (fst m)) ms)).
Definition gives (m : str * bool * doc) (l : list entry) : Prop :=
  exists p x, key_path ms (fst (fst m)) p /\ expands strict (snd m) x /\ l = map (under p) (entries x).
Lemma expand_go_outcome : forall rest before ls acc, ms = before ++ rest ->
  Forall (fun m => verdict strict (snd m) (expand_inner n strict (node_of (snd m)))) rest ->
  Forall2 gives before ls -> held strict (([], None) :: concat ls) acc ->
  match expand_go n strict quoted acc (map (fun m => (fst (fst m), node_of (snd m))) rest) with
  | Ok m => exists ls', Forall2 gives ms ls' /\ held strict (([], None) :: concat ls') m
  | Err EExpandDepth => True
  | Err (EExpandConflict c) => strict = true /\ conflicts (DObj ms) c
  | Err _ => False
  end.
Proof.
  induction rest as [|m rest IH]; intros before ls acc Em H F Hh; cbn [map expand_go].
  - exists ls. rewrite app_nil_r in Em. subst before. auto.
  - inversion H as [|? ? Hm H']; subst x l. cbn [fst snd].
    assert (Fm : strict = true -> Forall2 (member_entries ms) before ls) 
      by (intros S; clear -S F; induction F as [|a b x y (p & v & K & X & ->) _ IH]; constructor; auto; rewrite S in X; now exists p, v).
    assert (Gm : strict = true -> exists v, gathers true (([], None) :: concat ls) v).
    { intros S. rewrite S in Hh. eexists. apply (held_gathers true [] _ acc); [now left|discriminate|exact Hh]. }
    destruct (expand_inner n strict (node_of (snd m))) as [x|e] eqn:Ex; cbn [bind].
    2: { cbn [verdict] in Hm. destruct e; try exact Hm. destruct Hm as [S Hm]. split; [exact S|]. destruct (Gm S) as (v & Hv).
         exact (co_inside ms before m rest ls v c Em (Fm S) Hv Hm). }
    cbn [verdict] in Hm. assert (U : uniq x) by (eapply (expand_uniq n); eauto).
    pose proof (insert_entry_outcome n strict quoted _ acc (fst (fst m)) x Hh U) as O.
    set (pm := path_of (fst (fst m)) quoted) in *.
    assert (Kp : key_path ms (fst (fst m)) pm) by now apply (key_path_of ms _ _ quoted Hq).
    destruct (insert_entry n strict quoted acc (fst (fst m)) x) as [acc'|e]; cbn [bind].
    + apply (IH (before ++ [m]) (ls ++ [map (under pm) (entries (J x))])); [now rewrite <- app_assoc|exact H'| |].
      * apply Forall2_app; [exact F|]. constructor; [|constructor]. exists pm, (J x). auto.
      * rewrite concat_app. cbn [concat]. rewrite app_nil_r. exact O.
    + destruct e; try exact O. destruct O as (S & p & L & R & Np & Cl & ->). split; [exact S|]. destruct (Gm S) as (v & Hv). pose proof Hm as Hx. rewrite S in Hx.
      apply clashes_clash in Cl. exact (co_between ms before m rest ls pm (J x) p L R v Em (Fm S) Hv Kp Hx Cl).
Qed.
End Members.

Lemma expand_verdict strict d : forall n, verdict strict d (expand_inner n strict (node_of d)).
Proof.
  induction d using doc_ind'; intros n; (destruct n as [|n]; [exact I|]).
  - constructor.
  - cbn [node_of]. rewrite expand_arr.
    assert (G : match map_result (expand_inner n strict) (map node_of l) with
                | Ok xs => Forall2 (expands strict) l (map J xs)
                | Err EExpandDepth => True
                | Err (EExpandConflict c) => strict = true /\ conflicts (DArr l) c
                | Err _ => False end).
    { assert (Q : forall before l, Forall (fun d => forall n, verdict strict d (expand_inner n strict (node_of d))) l ->
        (strict = true -> Forall (fun x => exists v, expands true x v) before) ->
        match map_result (expand_inner n strict) (map node_of l) with
        | Ok xs => Forall2 (expands strict) l (map J xs)
        | Err EExpandDepth => True
        | Err (EExpandConflict c) => strict = true /\ conflicts (DArr (before ++ l)) c
        | Err _ => False end).
      { clear. intros before l H. revert before. induction H as [|d l Hd _ IH]; intros before B; cbn [map map_result]; [constructor|]. specialize (Hd n).
        destruct (expand_inner n strict (node_of d)) as [x|e]; cbn [bind verdict] in *.
        - specialize (IH (before ++ [d])). destruct (map_result _ _) as [xs|e]; cbn [bind].
          + constructor; [exact Hd|]. apply IH. intros S. apply Forall_app. split; [now apply B|]. constructor; [|constructor]. rewrite S in Hd. eauto.
          + rewrite <- app_assoc in IH. apply IH. intros S. apply Forall_app. split; [now apply B|]. constructor; [|constructor]. rewrite S in Hd. eauto.
        - destruct e; try exact Hd. destruct Hd as [S Hd]. split; [exact S|]. apply co_item; auto. }
      apply (Q [] l H). intros _. constructor. }
    destruct (map_result _ _) as [xs|e]; cbn [bind verdict]; [now constructor|]. destruct e; exact G.
  - cbn [node_of]. destruct n as [|n]; [exact I|]. rewrite expand_obj. set (q := rev _).
    pose proof (expand_go_outcome strict n l q eq_refl l [] [] [] eq_refl) as G.
    specialize (G ltac:(eapply Forall_impl; [|exact H]; intros a Ha; exact (Ha n)) ltac:(constructor)).
    assert (H0 : held strict (([], None) :: concat []) []).
    { split; [intros v [E|[]]; discriminate|]. split; constructor. }
    specialize (G H0). destruct (expand_go n strict q [] _) as [m|e]; cbn [bind].
    + destruct G as (ls & F & Hh). cbn [verdict]. apply (xp_obj strict l ls); [exact F|].
      apply (held_gathers strict [] (([], None) :: concat ls) m); [now left|discriminate|exact Hh].
    + cbn [verdict]. destruct e; exact G.
Qed.

(** * The depth limit *)
Fixpoint nheight (n : node) : nat :=
  match n with NObj es _ => S (list_max (map (fun kv => nheight (snd kv)) es)) | _ => 0 end.
Definition hs (es : list (str * node)) : nat := list_max (map (fun kv => nheight (snd kv)) es).
Definition fine {A} (r : result A) : Prop := r <> Err EExpandDepth.

Lemma hs_In es k v : In (k, v) es -> nheight v <= hs es.
Proof.
  intros H. assert (F : Forall (fun x => x <= hs es) (map (fun kv => nheight (snd kv)) es)) by (apply list_max_le; unfold hs; lia).
  rewrite Forall_forall in F. apply F. apply in_map_iff. now exists (k, v).
Qed.
Lemma hs_app a b : hs (a ++ b) = Nat.max (hs a) (hs b).
Proof. unfold hs. now rewrite map_app, list_max_app. Qed.
Lemma hs_cons k v es : hs ((k, v) :: es) = Nat.max (nheight v) (hs es).
Proof. reflexivity. Qed.
Lemma hs_set es k v : hs (entry_set es k v) <= Nat.max (hs es) (nheight v).
Proof.
  induction es as [|[k' w] es IH]; [cbn; lia|]. cbn [entry_set]. destruct (str_eqb k' k); rewrite !hs_cons; lia.
Qed.
Lemma fine_if {A} (b : bool) c (r : result A) : fine r -> fine (if b then Err (EExpandConflict c) else r).
Proof. destruct b; [intros _ X; discriminate|auto]. Qed.

Lemma put_fine n : (forall strict t s, S (hs s) <= n -> fine (merge_objects n strict t s)) ->
  (forall strict t s m, merge_objects n strict t s = Ok m -> hs m <= Nat.max (hs t) (hs s)) ->
  forall strict es k v, (nheight v <= n -> fine (put n strict es k v)) /\
    (forall m, put n strict es k v = Ok m -> hs m <= Nat.max (hs es) (nheight v)).
Proof.
  intros M1 M2 strict es k v. unfold put. destruct (entry_get es k) as [e|] eqn:E.
  2: { split; [intros _ X; discriminate|]. intros m X. injection X as <-. rewrite hs_app. cbn. lia. }
  assert (C : fine (if strict then Err (EExpandConflict (CKey k (node_kind e) (node_kind v))) else Ok (entry_set es k v)) /\
    forall m, (if strict then Err (EExpandConflict (CKey k (node_kind e) (node_kind v))) else Ok (entry_set es k v)) = Ok m -> hs m <= Nat.max (hs es) (nheight v)).
  { split; [apply fine_if; discriminate|]. intros m X. destruct strict; [discriminate|]. injection X as <-. apply hs_set. }
  destruct e as [p|items|eo eq]; try (split; [intros _; exact (proj1 C)|exact (proj2 C)]).
  destruct v as [p|items|so sq]; try (split; [intros _; exact (proj1 C)|exact (proj2 C)]). clear C.
  pose proof (hs_In _ _ _ (entry_get_In _ _ _ E)) as He. cbn [nheight] in He. fold (hs eo) in He.
  cbn [nheight]. fold (hs so). split.
  - intros Hn. specialize (M1 strict eo so ltac:(lia)). destruct (merge_objects n strict eo so) as [m|e]; cbn [bind]; [discriminate|].
    intros X. injection X as ->. now apply M1.
  - intros m X. destruct (merge_objects n strict eo so) as [m'|e] eqn:Em; cbn [bind] in X; [|discriminate]. injection X as <-.
    apply M2 in Em. pose proof (hs_set es k (NObj m' eq)) as Hs. cbn [nheight] in Hs. fold (hs m') in Hs. lia.
Qed.
Lemma merge_fine n : (forall strict t s, S (hs s) <= n -> fine (merge_objects n strict t s)) /\
  (forall strict t s m, merge_objects n strict t s = Ok m -> hs m <= Nat.max (hs t) (hs s)).
Proof.
  induction n as [|n [IH1 IH2]]; [split; [intros; lia|discriminate]|].
  pose proof (put_fine n IH1 IH2) as P. split; intros strict t s.
  - rewrite merge_objects_S. revert t. induction s as [|[k v] s IHs]; intros t H; [discriminate|]. rewrite merge_go_put. rewrite hs_cons in H.
    destruct (P strict t k v) as [P1 _]. specialize (P1 ltac:(lia)). destruct (put n strict t k v) as [t'|e]; cbn [bind].
    + apply IHs. lia.
    + intros X. injection X as ->. now apply P1.
  - intros m. rewrite merge_objects_S. revert t. induction s as [|[k v] s IHs]; intros t H; [injection H as <-; lia|].
    rewrite merge_go_put in H. destruct (P strict t k v) as [_ P2]. destruct (put n strict t k v) as [t'|e]; cbn [bind] in H; [|discriminate].
    specialize (P2 _ eq_refl). apply IHs in H. rewrite hs_cons. lia.
Qed.
Lemma insert_literal_fine n strict es k v :
  (S (nheight v) <= n -> fine (insert_literal_entry n strict es k v)) /\
  (forall m, insert_literal_entry n strict es k v = Ok m -> hs m <= Nat.max (hs es) (nheight v)).
Proof.
  destruct n as [|n]; [split; [lia|discriminate]|]. destruct (merge_fine n) as [M1 M2].
  destruct (put_fine n M1 M2 strict es k v) as [P1 P2]. split; [intros H; apply P1; lia|exact P2].
Qed.
Lemma insert_path_fine n : forall strict es p v, p <> [] ->
  (S (length p) + nheight v <= n -> fine (insert_path_entries n strict es p v)) /\
  (forall m, insert_path_entries n strict es p v = Ok m -> hs m <= Nat.max (hs es) (length p - 1 + nheight v)).
Proof.
  induction n as [|n IH]; intros strict es p v Np; [split; [lia|discriminate]|]. cbn [insert_path_entries].
  destruct p as [|k [|k2 p]]; [congruence| |].
  - destruct (insert_literal_fine n strict es k v) as [P1 P2]. cbn [length]. split; [intros H; apply P1; lia|].
    intros m H. apply P2 in H. lia.
  - set (p' := k2 :: p). assert (Np' : p' <> []) by discriminate.
    assert (S : forall eo q, hs eo <= hs es -> 
      (S (length (k :: p')) + nheight v <= S n -> fine (let? m := insert_path_entries n strict eo p' v in Ok (entry_set es k (NObj m q)))) /\
      (forall m, (let? m := insert_path_entries n strict eo p' v in Ok (entry_set es k (NObj m q))) = Ok m ->
         S (hs eo) <= hs es \/ eo = [] -> hs m <= Nat.max (hs es) (length (k :: p') - 1 + nheight v))).
    { intros eo q He. destruct (IH strict eo p' v Np') as [P1 P2]. split.
      - intros H. cbn [length] in H. specialize (P1 ltac:(lia)). destruct (insert_path_entries n strict eo p' v); cbn [bind]; [discriminate|].
        intros X. injection X as ->. now apply P1.
      - intros m H Heo. destruct (insert_path_entries n strict eo p' v) as [m'|]; cbn [bind] in H; [|discriminate]. injection H as <-.
        specialize (P2 _ eq_refl). pose proof (hs_set es k (NObj m' q)) as Hs. cbn [nheight] in Hs. fold (hs m') in Hs.
        assert (1 <= length p') by (cbn; lia). cbn [length]. destruct Heo as [Heo| ->]; [lia|]. change (hs []) with 0 in P2. lia. }
    destruct (entry_get es k) as [e|] eqn:E.
    + destruct e as [q|items|eo eq].
      * destruct (S [] [] ltac:(cbn; lia)) as [S1 S2]. split; [intros H; apply fine_if; now apply S1|].
        intros m H. destruct strict; [discriminate|]. apply S2; [exact H|now right].
      * destruct (S [] [] ltac:(cbn; lia)) as [S1 S2]. split; [intros H; apply fine_if; now apply S1|].
        intros m H. destruct strict; [discriminate|]. apply S2; [exact H|now right].
      * pose proof (hs_In _ _ _ (entry_get_In _ _ _ E)) as He. cbn [nheight] in He. fold (hs eo) in He.
        destruct (S eo eq ltac:(lia)) as [S1 S2]. split; [exact S1|]. intros m H. apply S2; [exact H|now left].
    + destruct (IH strict [] p' v Np') as [P1 P2]. split.
      * intros H. cbn [length] in H. specialize (P1 ltac:(cbn [length]; lia)). destruct (insert_path_entries n strict [] p' v); cbn [bind]; [discriminate|].
        intros X. injection X as ->. now apply P1.
      * intros m H. destruct (insert_path_entries n strict [] p' v) as [m'|]; cbn [bind] in H; [|discriminate]. injection H as <-.
        specialize (P2 _ eq_refl). rewrite hs_app, hs_cons. cbn [nheight]. fold (hs m'). change (hs []) with 0 in *.
        assert (1 <= length p') by (cbn; lia). cbn [length]. lia.
Qed.
Lemma dots_split k : length (split_on cDOT k) = S (dots k).
Proof.
  unfold dots. induction k as [|c k IH]; [reflexivity|]. cbn [split_on count_occ].
  destruct (c =? cDOT)%N eqn:E.
  - apply N.eqb_eq in E as ->. destruct (N.eq_dec cDOT cDOT); [|congruence]. cbn [length]. now rewrite IH.
  - apply N.eqb_neq in E. destruct (N.eq_dec c cDOT); [congruence|]. destruct (split_on cDOT k) as [|a b] eqn:Es; [discriminate|]. exact IH.
Qed.
Lemma insert_entry_fine n strict quoted es k v :
  (2 + dots k + nheight v <= n -> fine (insert_entry n strict quoted es k v)) /\
  (forall m, insert_entry n strict quoted es k v = Ok m -> hs m <= Nat.max (hs es) (dots k + nheight v)).
Proof.
  unfold insert_entry. destruct (expandable k quoted).
  - destruct (insert_path_fine n strict es (split_on cDOT k) v (split_on_not_nil _ _)) as [P1 P2]. rewrite dots_split in *.
    split; [intros H; apply P1; lia|]. intros m H. apply P2 in H. lia.
  - destruct (insert_literal_fine n strict es k v) as [P1 P2]. split; [intros H; apply P1; lia|]. intros m H. apply P2 in H. lia.
Qed.
Lemma list_max_ge l x : In x l -> x <= list_max l.
Proof. intros H. assert (F : Forall (fun y => y <= list_max l) l) by (apply list_max_le; lia). rewrite Forall_forall in F. auto. Qed.
Lemma expand_height strict d : forall n w, expand_inner n strict (node_of d) = Ok w -> nheight w <= doc_height d.
Proof.
  induction d using doc_ind'; intros n w E; (destruct n as [|n]; [discriminate|]).
  - injection E as <-. cbn. lia.
  - cbn [node_of] in E. rewrite expand_arr in E. inv_bind E. injection E as <-. cbn. lia.
  - cbn [node_of] in E. destruct n as [|n]; [discriminate|]. rewrite expand_obj in E. inv_bind E. injection E as <-.
    cbn [nheight doc_height]. fold (hs a). apply le_n_S. rename E0 into E. set (q := rev _) in E. clearbody q.
    enough (G : forall acc a, expand_go n strict q acc (map (fun m => (fst (fst m), node_of (snd m))) l) = Ok a ->
      hs a <= Nat.max (hs acc) (list_max (map (fun m => dots (fst (fst m)) + doc_height (snd m)) l))) by (apply G in E; exact E).
    clear a E. induction H as [|m l Hm _ IH]; intros acc a E; cbn [map expand_go] in E.
    + injection E as <-. lia.
    + cbn [fst snd] in E. inv_bind E. apply IH in E. destruct (insert_entry_fine n strict q acc (fst (fst m)) a0) as [_ P]. apply P in E1.
      apply Hm in E0. cbn [map list_max fold_right]. unfold list_max in *. lia.
Qed.
Lemma expand_fine strict d : forall n, doc_levels d <= n -> fine (expand_inner n strict (node_of d)).
Proof.
  induction d using doc_ind'; intros n Hn; (destruct n as [|n]; [cbn in Hn; lia|]).
  - discriminate.
  - cbn [node_of]. rewrite expand_arr. cbn [doc_levels] in Hn.
    assert (G : fine (map_result (expand_inner n strict) (map node_of l))).
    { assert (Hl : list_max (map doc_levels l) <= n) by lia. clear Hn. induction H as [|d l Hd _ IH]; cbn [map map_result]; [discriminate|].
      cbn [map list_max fold_right] in Hl. unfold list_max in IH. specialize (Hd n ltac:(lia)).
      destruct (expand_inner n strict (node_of d)) as [x|e]; cbn [bind]; [|intros X; injection X as ->; now apply Hd].
      specialize (IH ltac:(lia)). destruct (map_result _ _); cbn [bind]; [discriminate|]. intros X; injection X as ->; now apply IH. }
    destruct (map_result _ _); cbn [bind]; [discriminate|]. intros X; injection X as ->; now apply G.
  - cbn [node_of]. cbn [doc_levels] in Hn. destruct n as [|n]; [lia|]. rewrite expand_obj. set (q := rev _). clearbody q.
    enough (G : forall acc, fine (expand_go n strict q acc (map (fun m => (fst (fst m), node_of (snd m))) l))).
    { specialize (G []). destruct (expand_go n strict q [] _); cbn [bind]; [discriminate|]. intros X; injection X as ->; now apply G. }
    assert (Hl : list_max (map (fun m => Nat.max (doc_levels (snd m)) (2 + dots (fst (fst m)) + doc_height (snd m))) l) <= n) by lia. clear Hn.
    induction H as [|m l Hm _ IH]; intros acc; cbn [map expand_go]; [discriminate|]. cbn [fst snd].
    cbn [map list_max fold_right] in Hl. unfold list_max in IH. specialize (Hm n ltac:(lia)).
    destruct (expand_inner n strict (node_of (snd m))) as [x|e] eqn:Ex; cbn [bind]; [|intros X; injection X as ->; now apply Hm].
    apply expand_height in Ex. destruct (insert_entry_fine n strict q acc (fst (fst m)) x) as [P _]. specialize (P ltac:(lia)).
    destruct (insert_entry n strict q acc (fst (fst m)) x) as [acc'|e]; cbn [bind]; [|intros X; injection X as ->; now apply P].
    apply IH. lia.
Qed.

(** The other way round: what has to be gone through needs as many levels. *)
Lemma insert_path_needs strict : forall n es p v m, insert_path_entries n strict es p v = Ok m -> 1 < length p -> 1 + length p <= n.
Proof.
  induction n as [|n IH]; intros es p v m E L; [discriminate|]. destruct p as [|k [|k2 p]]; cbn in L; try lia. cbn [insert_path_entries] in E.
  assert (G : forall es' m', insert_path_entries n strict es' (k2 :: p) v = Ok m' -> 1 + length (k :: k2 :: p) <= S n).
  { intros es' m' E'. destruct p as [|k3 p].
    - destruct n as [|n]; [discriminate|]. cbn [insert_path_entries] in E'. destruct n; [discriminate|]. cbn. lia.
    - apply IH in E'; cbn in *; lia. }
  destruct (entry_get es k) as [[| |eo eq]|].
  - destruct strict; [discriminate|]. inv_bind E. eauto.
  - destruct strict; [discriminate|]. inv_bind E. eauto.
  - inv_bind E. eauto.
  - inv_bind E. eauto.
Qed.
Lemma insert_entry_needs n strict quoted es k v m : insert_entry n strict quoted es k v = Ok m ->
  (if 1 <? length (path_of k quoted) then 1 + length (path_of k quoted) else 1) <= n.
Proof.
  unfold insert_entry, path_of. destruct (expandable k quoted); intros E.
  - destruct (Nat.ltb_spec 1 (length (split_on cDOT k))); [now apply insert_path_needs in E|]. destruct n; [discriminate|lia].
  - cbn. destruct n; [discriminate|lia].
Qed.
Lemma expand_needs strict d k : nested d k -> forall n w, expand_inner n strict (node_of d) = Ok w -> k <= n.
Proof.
  induction 1 as [p|l|l d k Hi _ IH|ms|ms m k Hi _ IH|ms m p Hi Hp]; intros n w E; (destruct n as [|n]; [discriminate|]); try lia.
  - cbn [node_of] in E. rewrite expand_arr in E. inv_bind E. apply le_n_S. clear E. revert a E0.
    induction l as [|x l IHl]; intros a E; [easy|]. cbn [map map_result] in E. inv_bind E. inv_bind E. destruct Hi as [->|Hi]; eauto.
  - cbn [node_of] in E. destruct n as [|n]; [discriminate|]. lia.
  - cbn [node_of] in E. destruct n as [|n]; [discriminate|]. rewrite expand_obj in E. inv_bind E. set (q := rev _) in E0. clearbody q.
    do 2 apply le_n_S. clear E. revert E0. generalize (@nil (str * node)). revert a.
    induction ms as [|x ms IHl]; intros a acc E; [easy|]. cbn [map expand_go fst snd] in E. inv_bind E. destruct Hi as [->|Hi]; eauto.
  - cbn [node_of] in E. destruct n as [|n]; [discriminate|]. rewrite expand_obj in E. inv_bind E. set (q := rev _) in E0.
    apply (key_path_of ms _ _ q eq_refl) in Hp. subst p.
    do 2 apply le_n_S. clear E. clearbody q. revert E0. generalize (@nil (str * node)). revert a.
    induction ms as [|x ms IHl]; intros a acc E; [easy|]. cbn [map expand_go fst snd] in E. inv_bind E. destruct Hi as [->|Hi]; [|eauto].
    eapply insert_entry_needs; eauto.
Qed.
