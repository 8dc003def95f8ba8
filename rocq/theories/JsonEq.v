(** The equivalences of Spec.v on JSON values, and normalisation. *)
From Verif Require Import Chars Floats Json JsonInd Normalize Spec Lex NumProof.
From Coq Require Import Permutation.

Local Open Scope nat_scope.

Lemma Forall2_flip {A B} (R : A -> B -> Prop) l m : Forall2 R l m -> Forall2 (fun b a => R a b) m l.
Proof. induction 1; constructor; auto. Qed.
Lemma Forall2_comp {A B C} (R : A -> B -> Prop) (S : B -> C -> Prop) (T : A -> C -> Prop) l m n :
  (forall a b c, In a l -> In b m -> In c n -> R a b -> S b c -> T a c) ->
  Forall2 R l m -> Forall2 S m n -> Forall2 T l n.
Proof.
  intros Hc HR. revert n Hc. induction HR; intros n Hc HS; inversion HS; subst; constructor.
  - eapply Hc; eauto; now left.
  - apply IHHR; auto. intros. eapply Hc; eauto; now right.
Qed.
Lemma Forall2_perm {A B} (R : A -> B -> Prop) b b' : Permutation b b' -> forall a, Forall2 R a b ->
  exists a', Permutation a a' /\ Forall2 R a' b'.
Proof.
  induction 1; intros a Ha.
  - inversion Ha; subst. exists []. auto.
  - inversion Ha as [|y ? a0 ? Hy Ha0]; subst. destruct (IHPermutation _ Ha0) as (a' & P & F).
    exists (y :: a'). auto.
  - inversion Ha as [|y0 ? a0 ? Hy Ha0]; subst. inversion Ha0 as [|y1 ? a1 ? Hy1 Ha1]; subst.
    exists (y1 :: y0 :: a1). split; [constructor|auto].
  - destruct (IHPermutation1 _ Ha) as (a1 & P1 & F1). destruct (IHPermutation2 _ F1) as (a2 & P2 & F2).
    exists a2. split; auto. now transitivity a1.
Qed.
Lemma Forall2_refl_in {A} (R : A -> A -> Prop) l : Forall (fun x => R x x) l -> Forall2 R l l.
Proof. induction 1; constructor; auto. Qed.
Lemma jequiv_refl v : jequiv v v.
Proof.
  induction v using json_ind'.
  - constructor.
  - constructor. now apply Forall2_refl_in.
  - econstructor; [reflexivity|]. apply Forall2_refl_in. eapply Forall_impl; [|exact H]. cbn. auto.
Qed.

Lemma jequiv_sym v : forall w, jequiv v w -> jequiv w v.
Proof.
  induction v using json_ind'; intros w Hw; inversion Hw as [|? ? F0|? l' ? P0 F0]; subst.
  - constructor.
  - constructor. clear Hw. 
    induction F0; constructor; inversion H; subst; auto.
  - assert (H' : Forall (fun kv => forall w, jequiv (snd kv) w -> jequiv w (snd kv)) l').
    { rewrite Forall_forall in *. intros x Hx. apply H. eapply Permutation_in; [apply Permutation_sym; eauto|auto]. }
    assert (F : Forall2 (fun a b => fst a = fst b /\ jequiv (snd a) (snd b)) m l').
    { clear - H' F0. induction F0 as [|a b l' m [Hk Hv] _ IH]; constructor; inversion H'; subst; auto. }
    destruct (Forall2_perm _ _ _ (Permutation_sym P0) _ F) as (m' & P & F').
    econstructor; eauto.
Qed.

Lemma jequiv_trans v : forall w u, jequiv v w -> jequiv w u -> jequiv v u.
Proof.
  induction v using json_ind'; intros w u Hw Hu; inversion Hw; subst; inversion Hu; subst.
  - constructor.
  - constructor. eapply Forall2_comp; [|eassumption|eassumption]. intros a b c Ha _ _ J1 J2.
    rewrite Forall_forall in H. eapply H; eauto.
  - rename l' into l1, m into m1, l'0 into l2, m0 into m2.
    match goal with F : Forall2 _ l1 m1, P : Permutation m1 l2 |- _ =>
      destruct (Forall2_perm _ _ _ P _ F) as (l3 & P3 & F3) end.
    econstructor; [etransitivity; eauto|].
    eapply Forall2_comp; [|exact F3|eassumption]. intros a b c Ha _ _ [E1 J1] [E2 J2]. split; [congruence|].
    rewrite Forall_forall in H. eapply H; eauto.
    eapply Permutation_in; [apply Permutation_sym; etransitivity; eauto|auto].
Qed.

Lemma rows_jequiv l m : Forall2 (fun a b => exists es es', a = JObj es /\ b = JObj es' /\ Permutation es es') l m ->
  Forall2 jequiv l m.
Proof.
  induction 1 as [|a b l m R F IH]; constructor; auto.
  destruct R as (es & es' & -> & -> & P). econstructor; [exact P|]. apply Forall2_refl_in.
  apply Forall_forall. intros. split; auto. apply jequiv_refl.
Qed.

Lemma table_ordered_jequiv v : forall w, table_ordered v w -> jequiv v w.
Proof.
  induction v using json_ind'; intros w Hw; inversion Hw as [|? ? F|? fields ? T F|? ? F]; subst.
  - constructor.
  - constructor. clear Hw. induction F; constructor; inversion H; subst; auto.
  - constructor. apply rows_jequiv. clear - F. induction F as [|a b l m R F IH]; constructor; auto.
    destruct R as (es & es' & -> & -> & P & _). eauto.
  - econstructor; [reflexivity|]. clear Hw. induction F as [|a b l m [E R] F IH]; constructor; inversion H; subst; auto.
Qed.

Lemma perm_same_keys (es es' : list (str * json)) : NoDup (map fst es) -> Permutation es es' ->
  map fst es' = map fst es -> es' = es.
Proof.
  revert es'. induction es as [|[k v] es IH]; intros es' Hn P E.
  - now apply Permutation_nil in P.
  - destruct es' as [|[k' v'] es']; [discriminate|]. cbn in E. injection E as -> E.
    cbn in Hn. inversion Hn as [|? ? Hk Hn']; subst.
    assert (v' = v).
    { assert (Hi : In (k, v') ((k, v) :: es)).
      { eapply Permutation_in; [apply Permutation_sym; exact P|now left]. }
      destruct Hi as [Hi|Hi]; [congruence|]. exfalso. apply Hk. apply in_map_iff. now exists (k, v'). }
    subst v'. f_equal. apply IH; auto. eapply Permutation_cons_inv; eauto.
Qed.

Lemma table_ordered_uniform v : forall w, distinct_keys v -> uniform v -> table_ordered v w -> w = v.
Proof.
  induction v using json_ind'; intros w Hd Hu Hw; inversion Hw as [|? ? F|? fields ? T F|? ? F]; subst; auto;
    inversion Hd as [|? D|? D0 D]; inversion Hu as [|? U0 U|? U]; subst; f_equal.
  - clear Hd Hu Hw U0. induction F; auto. inversion H; inversion D; inversion U; subst. f_equal; auto.
  - specialize (U0 _ T). clear Hd Hu Hw T H U. induction F as [|a b l m R F IH]; auto.
    inversion D as [|? ? Da]; inversion U0 as [|? ? Ua]; subst. f_equal; auto.
    destruct R as (es & es' & -> & -> & P & K), Ua as (es0 & E & K0). injection E as <-.
    f_equal. inversion Da; subst. apply perm_same_keys; auto.
  - clear Hd Hu Hw D0. induction F as [|[k a] [k' b] l m [E R] F IH]; auto.
    inversion H; inversion D; inversion U; subst. cbn in *. f_equal; auto. f_equal; auto.
Qed.

(** * Normalisation *)

Lemma normalize_primitive_spec p : norm_prim p (normalize_primitive p).
Proof.
  destruct p as [s|x|b|]; try (apply np_same; exact I). cbn.
  destruct (f64_is_finite x) eqn:E; cbn [negb]; [|now apply np_nonfinite].
  destruct (f64_is_zero x) eqn:Z; [|apply np_same; split; auto; intros H; unfold f64_is_zero in Z; now rewrite H in Z].
  destruct (f64_sf x) as [[]| | |] eqn:S.
  - now apply np_negzero.
  - assert (x = f64_zero) as -> by (apply f64_eq; rewrite S; reflexivity). apply np_same. split; auto; discriminate.
  - unfold f64_is_zero in Z. now rewrite S in Z.
  - unfold f64_is_zero in Z. now rewrite S in Z.
  - unfold f64_is_zero in Z. now rewrite S in Z.
Qed.

Lemma norm_prim_json p q : norm_prim p q -> json_prim q.
Proof. intros [p' H|x H|x H]; auto; cbn; auto. split; [reflexivity|discriminate]. Qed.

Lemma normalize_spec v : norm_json v (normalize_json_value v).
Proof.
  induction v using json_ind'; cbn [normalize_json_value]; constructor.
  - apply normalize_primitive_spec.
  - induction H; constructor; auto.
  - induction H; constructor; auto.
Qed.

Lemma norm_keys l m : Forall2 (fun a b : str * json => fst a = fst b /\ norm_json (snd a) (snd b)) l m ->
  map fst m = map fst l.
Proof. induction 1 as [|a b l m [E _] _ IH]; cbn; congruence. Qed.

Lemma norm_distinct v : forall w, norm_json v w -> distinct_keys v -> distinct_keys w.
Proof.
  induction v using json_ind'; intros w Hn Hd; inversion Hn as [|? ? F|? ? F]; subst;
    inversion Hd as [|? D|? D0 D]; subst; constructor.
  - clear Hn Hd. induction F; constructor; inversion H; inversion D; subst; auto.
  - rewrite (norm_keys _ _ F). auto.
  - clear Hn Hd D0. induction F as [|a b l m [E R] F IH]; constructor; inversion H; inversion D; subst; auto.
Qed.

Lemma norm_prim_shape v w : norm_json v w -> (exists p, v = JPrim p) <-> (exists p, w = JPrim p).
Proof. intros [p q H|l m H|l m H]; split; intros [x E]; try discriminate; eauto. Qed.

Lemma norm_tabular l m fields : Forall2 norm_json l m -> tabular m fields -> tabular l fields.
Proof.
  intros F (Hne & (first & r & -> & Hf) & Hall). split; auto. split.
  - inversion F as [|a ? l0 ? Ha F0]; subst. inversion Ha as [| |es ? Fe]; subst. exists es, l0. split; auto.
    symmetry. now apply norm_keys.
  - clear Hf Hne. induction F as [|a b l m Ha F IH]; [constructor|]. inversion Hall as [|? ? Hb Hall']; subst.
    constructor; auto. destruct Hb as (es & -> & P & A). inversion Ha as [| |es0 ? Fe]; subst.
    exists es0. split; auto. rewrite <- (norm_keys _ _ Fe). split; auto.
    clear - Fe A. induction Fe as [|x y l m [_ Hxy] _ IH]; constructor; inversion A; subst; auto.
    apply (norm_prim_shape _ _ Hxy). auto.
Qed.
Lemma norm_tabular_iff l m fields : Forall2 norm_json l m -> tabular l fields -> tabular m fields.
Proof.
  intros F (Hne & (first & r & -> & Hf) & Hall). split; auto. split.
  - inversion F as [|? a ? l0 Ha F0]; subst. inversion Ha as [| |? es Fe]; subst. exists es, l0. split; auto.
    now apply norm_keys.
  - clear Hf Hne. induction F as [|a b l m Ha F IH]; [constructor|]. inversion Hall as [|? ? Hb Hall']; subst.
    constructor; auto. destruct Hb as (es & -> & P & A). inversion Ha as [| |? es0 Fe]; subst.
    exists es0. split; auto. rewrite (norm_keys _ _ Fe). split; auto.
    clear - Fe A. induction Fe as [|x y l m [_ Hxy] _ IH]; constructor; inversion A; subst; auto.
    apply (norm_prim_shape _ _ Hxy). auto.
Qed.

Lemma norm_string v s : norm_json v (JPrim (PStr s)) -> v = JPrim (PStr s).
Proof. intros H. inversion H as [p q Hp| |]; subst. inversion Hp; subst. reflexivity. Qed.

Lemma Forall2_length' {A B} (R : A -> B -> Prop) l m : Forall2 R l m -> length m = length l.
Proof. induction 1; cbn; congruence. Qed.

Lemma norm_portable_at v : forall t w, norm_json v w -> portable_at t v -> portable_at t w.
Proof.
  induction v using json_ind'; intros t w Hn Hp; inversion Hn as [|? ? F|? ? F]; subst; [constructor| |].
  - inversion Hp as [|? ? Hl Hf Hi|? fields Hl Ht Hf|]; subst.
    + apply po_list.
      * now rewrite (Forall2_length' _ _ _ F).
      * intros E fields T. apply (Hf E fields). eapply norm_tabular; eauto.
      * clear Hn Hp Hl Hf. induction F; constructor; inversion H; inversion Hi; subst; auto.
    + apply (po_table _ fields); auto.
      * now rewrite (Forall2_length' _ _ _ F).
      * eapply norm_tabular_iff; eauto.
  - inversion Hp as [| | |? ? Hs Hi]; subst. constructor.
    + clear - F Hs. induction F as [|a b l m [E R] F IH]; constructor; inversion Hs; subst; auto.
      intros s Es. rewrite Es in R. apply norm_string in R. rewrite <- E. auto.
    + clear Hn Hp Hs. induction F as [|a b l m [E R] F IH]; constructor; inversion H; inversion Hi; subst; auto.
Qed.
Lemma norm_portable v w : norm_json v w -> portable v -> portable w.
Proof. apply norm_portable_at. Qed.

Lemma norm_canonical v : forall w, norm_json v w -> canonical w.
Proof.
  induction v using json_ind'; intros w Hn; inversion Hn as [? ? P|? ? F|? ? F]; subst; constructor.
  - eapply norm_prim_json; eauto.
  - clear Hn. induction F; constructor; inversion H; subst; auto.
  - clear Hn. induction F as [|a b l m [E R] F IH]; constructor; inversion H; subst; auto.
Qed.

Lemma norm_uniform v : forall w, norm_json v w -> uniform v -> uniform w.
Proof.
  induction v using json_ind'; intros w Hn Hu; inversion Hn as [|? ? F|? ? F]; subst; [constructor| |];
    inversion Hu as [|? U0 U|? U]; subst; constructor.
  - intros fields T. specialize (U0 fields (norm_tabular _ _ _ F T)). clear - F U0.
    induction F as [|a b l m R F IH]; constructor; inversion U0 as [|? ? Ua]; subst; auto.
    destruct Ua as (es & -> & K). inversion R as [| |? es' Fe]; subst. exists es'. split; auto.
    now apply norm_keys.
  - clear Hn Hu U0. induction F; constructor; inversion H; inversion U; subst; auto.
  - clear Hn Hu. induction F as [|a b l m [E R] F IH]; constructor; inversion H; inversion U; subst; auto.
Qed.

Lemma normalize_canonical v : canonical v -> normalize_json_value v = v.
Proof.
  induction v using json_ind'; intros Hc; inversion Hc as [? P|? C|? C]; subst; cbn [normalize_json_value]; f_equal.
  - destruct p as [s|x|b|]; cbn; auto. destruct P as [P1 P2]. rewrite P1. cbn.
    destruct (f64_is_zero x) eqn:E; auto. f_equal. apply f64_eq.
    unfold f64_is_zero in E. destruct (f64_sf x) as [[]| | |]; cbn; congruence.
  - clear Hc. induction H; cbn; auto. inversion C; subst. f_equal; auto.
  - clear Hc. induction H as [|[k v] l Hv _ IH]; cbn; auto. inversion C; subst. cbn in *. f_equal; auto. f_equal; auto.
Qed.
