(** Strict path expansion does not depend on the order of members. *)
From Coq Require Import Permutation.
From Verif Require Import Chars Floats Json JsonInd JsonEq Shared Scanner Parser DecValidation Decoders EventBuilder Expand DecodeApi
  Lex Spec DecProps SpecText SpecRead ReadProof SpecExpand ExpandProof ExpandProps ExpandMean SpecPerm.

Local Open Scope nat_scope.

(** * Lists that are related element by element after a permutation *)
Definition permuted {A} (R : A -> A -> Prop) (l l' : list A) : Prop := exists m, Permutation l m /\ Forall2 R m l'.

Lemma permuted_app {A} (R : A -> A -> Prop) a a' b b' : permuted R a a' -> permuted R b b' -> permuted R (a ++ b) (a' ++ b').
Proof. intros (m & P & F) (n & Q & G). exists (m ++ n). split; [now apply Permutation_app|now apply Forall2_app]. Qed.
Lemma permuted_concat {A} (R : A -> A -> Prop) ls ls' : permuted (permuted R) ls ls' -> permuted R (concat ls) (concat ls').
Proof.
  intros (m & P & F). assert (H : permuted R (concat m) (concat ls')).
  { clear P. induction F as [|a b m l Hab _ IH]; [exists []; split; constructor|]. cbn [concat]. now apply permuted_app. }
  destruct H as (n & Q & G). exists n. split; [|exact G]. rewrite <- Q.
  rewrite <- (map_id ls), <- (map_id m), <- !flat_map_concat_map. now apply Permutation_flat_map.
Qed.
Lemma permuted_map {A B} (R : A -> A -> Prop) (T : B -> B -> Prop) (f : A -> B) l l' :
  (forall a b, In a l -> R a b -> T (f a) (f b)) -> permuted R l l' -> permuted T (map f l) (map f l').
Proof.
  intros H (m & P & F). exists (map f m). split; [now apply Permutation_map|].
  assert (H' : forall a b, In a m -> R a b -> T (f a) (f b)) by (intros a b I; apply H; eapply Permutation_in; [apply Permutation_sym; exact P|exact I]).
  clear P H. induction F as [|a b m l2 Hab _ IH]; cbn [map]; constructor; [apply H'; [now left|exact Hab]|].
  apply IH. intros x y I. apply H'. now right.
Qed.
Lemma permuted_flat_map {A B} (R : A -> A -> Prop) (T : B -> B -> Prop) (f : A -> list B) l l' :
  (forall a b, R a b -> Forall2 T (f a) (f b)) -> permuted R l l' -> permuted T (flat_map f l) (flat_map f l').
Proof.
  intros H (m & P & F). exists (flat_map f m). split; [now apply Permutation_flat_map|].
  clear P. induction F as [|a b m l2 Hab _ IH]; cbn [flat_map]; [constructor|]. apply Forall2_app; auto.
Qed.
Lemma permuted_In {A} (R : A -> A -> Prop) l l' b : permuted R l l' -> In b l' -> exists a, In a l /\ R a b.
Proof.
  intros (m & P & F) I. assert (G : exists a, In a m /\ R a b).
  { clear P. induction F as [|x y m l' Hxy F IH]; [destruct I|]. destruct I as [->|I]; [exists x; split; [now left|exact Hxy]|].
    destruct (IH I) as (a & ? & ?). exists a. split; [now right|assumption]. }
  destruct G as (a & Ha & Hr). exists a. split; [|exact Hr]. eapply Permutation_in; [apply Permutation_sym; exact P|exact Ha].
Qed.
Lemma permuted_length {A} (R : A -> A -> Prop) l l' : permuted R l l' -> length l = length l'.
Proof. intros (m & P & F). rewrite (Permutation_length P). clear P. induction F; cbn [length]; congruence. Qed.

(** * Entries *)
Definition same_entry (a b : entry) : Prop :=
  fst a = fst b /\ match snd a, snd b with Some v, Some w => jequiv v w | None, None => True | _, _ => False end.
Notation same := (permuted same_entry).

Lemma same_cons a b l l' : same_entry a b -> same l l' -> same (a :: l) (b :: l').
Proof. intros H (m & P & F). exists (a :: m). split; [now constructor|now constructor]. Qed.
Lemma same_under p l l' : same l l' -> same (map (under p) l) (map (under p) l').
Proof.
  apply permuted_map. intros [q x] [q' x'] _ [E H]. cbn [fst snd] in *. subst q'. split; [reflexivity|exact H].
Qed.
Lemma jequiv_object v w : jequiv v w -> is_object v <-> is_object w.
Proof. destruct 1; unfold is_object; split; intros (x & E); try discriminate; eauto. Qed.
Lemma entries_same v : forall w, jequiv v w -> same (entries v) (entries w).
Proof.
  induction v as [p|l IH|l IH] using json_ind'; intros w H; inversion H as [|? m F|? l' m P F]; subst; cbn [entries].
  - exists [([], Some (JPrim p))]. split; [reflexivity|]. constructor; [|constructor]. split; [reflexivity|exact H].
  - exists [([], Some (JArr l))]. split; [reflexivity|]. constructor; [|constructor]. split; [reflexivity|exact H].
  - apply same_cons; [split; [reflexivity|exact I]|]. rewrite !flat_map_concat_map. apply permuted_concat.
    apply permuted_map with (R := fun a b => fst a = fst b /\ jequiv (snd a) (snd b)); [|exists l'; auto].
    intros [k v] [k' v'] Hi [E Hv]. cbn [fst snd] in *. subst k'. apply same_under.
    rewrite Forall_forall in IH. exact (IH _ Hi _ Hv).
Qed.
Lemma same_below k l l' : same l l' -> same (below k l) (below k l').
Proof.
  apply permuted_flat_map. intros [q x] [q' x'] [E H]. cbn [fst snd] in *. subst q'.
  destruct q as [|k' r]; [constructor|]. destruct (list_eq_dec N.eq_dec k' k); [|constructor]. constructor; [|constructor]. split; [reflexivity|exact H].
Qed.
Lemma same_heads l l' : same l l' -> Permutation (heads l) (heads l').
Proof.
  intros H. assert (G : permuted eq (heads l) (heads l')).
  { revert H. apply permuted_flat_map. intros [q x] [q' x'] [E H]. cbn [fst snd] in *. subst q'. destruct q; repeat constructor. }
  destruct G as (m & P & F). assert (E : m = heads l') by (clear P; induction F; congruence). now subst m.
Qed.

Lemma firsts_exists hs : exists ks, firsts hs ks.
Proof.
  induction hs as [|k hs IH] using rev_ind; [exists []; constructor|]. destruct IH as (ks & H).
  destruct (in_dec (list_eq_dec N.eq_dec) k hs) as [I|I]; [exists ks; now apply fi_old|exists (ks ++ [k]); now apply fi_new].
Qed.

(** * Gathering *)
Lemma gathers_same v : forall l l', gathers true l v -> same l l' -> exists v', gathers true l' v' /\ jequiv v v'.
Proof.
  induction v as [p|vs _|es IH] using json_ind'; intros l l' G S.
  1,2: inversion G as [l0 v Ho Hn|]; subst; rewrite (Hn eq_refl) in S; cbn [app] in S; destruct S as (m & P & F);
    apply Permutation_length_1_inv in P; subst m; inversion F as [|? [q x] ? ? [E H] F']; subst; inversion F'; subst; cbn [fst snd] in *; subst q;
    destruct x as [w|]; [|destruct H]; exists w; split; [|exact H]; apply (ga_leaf true []); [|reflexivity]; rewrite <- (jequiv_object _ _ H); exact Ho.
  inversion G as [l0 v Ho Hn E|l0 l1 es0 B Hl Hno Hf Hes]; subst; [elim Ho; eexists; reflexivity|].
  destruct B as [->|[B _]]; [|discriminate]. cbn [app] in *.
  destruct (firsts_exists (heads l')) as (ks & Hk).
  assert (P : Permutation ks (map fst es)).
  { apply NoDup_Permutation; [eapply firsts_NoDup; eauto|eapply firsts_NoDup; eauto|]. intros k.
    rewrite (firsts_In _ _ Hk), (firsts_In _ _ Hf). pose proof (same_heads _ _ S) as Q. split; apply Permutation_in; [now apply Permutation_sym|exact Q]. }
  apply Permutation_map_inv in P as (es1 & -> & P).
  assert (X : exists es', Forall2 (fun a b => fst a = fst b /\ jequiv (snd a) (snd b)) es1 es' /\
                          Forall (fun kv => gathers true (below (fst kv) l') (snd kv)) es').
  { assert (A : Forall (fun kv => exists w, gathers true (below (fst kv) l') w /\ jequiv (snd kv) w) es1).
    { apply Forall_forall. intros kv I. apply (Permutation_in _ (Permutation_sym P)) in I. rewrite Forall_forall in IH, Hes.
      exact (IH kv I _ _ (Hes kv I) (same_below _ _ _ S)). }
    clear - A. induction A as [|[k v] es1 (w & H1 & H2) _ (es' & F & G)]; [exists []; split; constructor|].
    exists ((k, w) :: es'). split; constructor; auto. }
  destruct X as (es' & F & Hg). exists (JObj es'). split; [|exact (je_obj _ _ _ P F)].
  assert (Ek : map fst es1 = map fst es') by (clear -F; induction F as [|a b l m [E _] _ IH]; cbn [map]; [reflexivity|now f_equal]).
  rewrite Ek in Hk. apply (ga_object true [] l' es'); [now left| | |exact Hk|exact Hg].
  - intros ->. apply permuted_length in S. destruct l1; [contradiction|discriminate].
  - intros v I. destruct (permuted_In _ _ _ _ S I) as ([q x] & Hi & E & H). cbn [fst snd] in *. subst q. destruct x as [u|]; [|exact H]. exact (Hno u Hi).
Qed.

(** * Documents *)
Lemma key_path_same ms ms' k p : (forall q, (exists x, In (k, q, x) ms) <-> (exists x, In (k, q, x) ms')) -> key_path ms k p -> key_path ms' k p.
Proof.
  intros H K. destruct K as [x I|N|segs N D].
  - destruct (proj1 (H true)) as (y & Hy); [eauto|]. eapply kp_quoted; eauto.
  - now apply kp_plain.
  - apply kp_dotted; [|exact D]. intros x I. destruct (proj2 (H true)) as (y & Hy); [eauto|]. exact (N y Hy).
Qed.
Lemma reordered_keys (l l' m : list (str * bool * doc)) k q : Permutation l l' -> Forall2 (fun a b => fst a = fst b /\ reordered (snd a) (snd b)) l' m ->
  (exists x, In (k, q, x) l) <-> (exists x, In (k, q, x) m).
Proof.
  intros P F. assert (E : Permutation (map fst l) (map fst m)).
  { rewrite P. clear P. induction F as [|a b l' m [E _] _ IH]; cbn [map]; [constructor|]. rewrite E. now constructor. }
  assert (H : forall (n : list (str * bool * doc)), (exists x, In (k, q, x) n) <-> In (k, q) (map fst n)).
  { intros n. rewrite in_map_iff. split; [intros (x & I); exists (k, q, x); auto|intros ([kq x] & Ek & I); cbn [fst] in Ek; subst kq; eauto]. }
  rewrite !H. split; apply Permutation_in; [exact E|now apply Permutation_sym].
Qed.

Lemma reordered_expands d : forall d' v, reordered d d' -> expands true d v -> exists v', expands true d' v' /\ jequiv v v'.
Proof.
  induction d using doc_ind'; intros d' v R X; inversion R as [|? m F|? l' m P F]; subst; inversion X as [|? vs Fv|? ls ? Fl G]; subst.
  - exists (JPrim p). split; constructor.
  - assert (Y : exists ws, Forall2 (expands true) m ws /\ Forall2 jequiv vs ws).
    { clear R X. revert vs Fv. induction F as [|a b l m Hab _ IHF]; intros vs Fv; inversion Fv as [|? v1 ? vs1 Hv1 Fv1]; subst; [exists []; split; constructor|].
      inversion H as [|? ? Ha Hl]; subst. destruct (Ha _ _ Hab Hv1) as (w & W1 & W2). destruct (IHF Hl _ Fv1) as (ws & W3 & W4).
      exists (w :: ws). split; constructor; auto. }
    destruct Y as (ws & W1 & W2). exists (JArr ws). split; now constructor.
  - destruct (Permutation_Forall2 P Fl) as (ls1 & Pl & Fl1).
    assert (Y : exists ls', Forall2 (fun mm ll => exists p x, key_path m (fst (fst mm)) p /\ expands true (snd mm) x /\ ll = map (under p) (entries x)) m ls' /\
                            Forall2 same ls1 ls').
    { assert (Hk : forall k p, key_path l k p -> key_path m k p).
      { intros k p. apply key_path_same. intros q. eapply reordered_keys; eauto. }
      assert (H' : Forall (fun mm : str * bool * doc => forall d' v, reordered (snd mm) d' -> expands true (snd mm) v -> exists v', expands true d' v' /\ jequiv v v') l').
      { rewrite Forall_forall in H |- *. intros x I. apply H. eapply Permutation_in; [apply Permutation_sym; exact P|exact I]. }
      revert Hk. generalize m at 1 2. intros m0 Hk. clear - H' F Fl1 Hk. revert ls1 Fl1. induction F as [|a b l' m [Ek Hr] _ IHF]; intros ls1 Fl1.
      - inversion Fl1; subst. exists []. split; constructor.
      - inversion Fl1 as [|? l1 ? lr (p & x & K & X & ->) Fr]; subst. inversion H' as [|? ? Ha Hl]; subst.
        destruct (IHF Hl _ Fr) as (ls' & W3 & W4). destruct (Ha _ _ Hr X) as (w & W1 & W2).
        exists (map (under p) (entries w) :: ls'). split; constructor; auto.
        + exists p, w. rewrite <- Ek. split; [now apply Hk|]. split; [exact W1|reflexivity].
        + apply same_under, entries_same, W2. }
    destruct Y as (ls' & Y1 & Y2).
    destruct (gathers_same v (([], None) :: concat ls) (([], None) :: concat ls') G) as (v' & G' & J).
    { apply same_cons; [split; [reflexivity|exact I]|]. apply permuted_concat. exists ls1. split; [exact Pl|exact Y2]. }
    exists v'. split; [|exact J]. econstructor; eauto.
Qed.

Lemma reordered_sym d : forall d', reordered d d' -> reordered d' d.
Proof.
  induction d using doc_ind'; intros d' R; inversion R as [|? m F|? l' m P F]; subst.
  - constructor.
  - constructor. clear R. induction F as [|a b l m Hab _ IHF]; constructor; inversion H; subst; auto.
  - assert (H' : Forall (fun mm : str * bool * doc => forall d', reordered (snd mm) d' -> reordered d' (snd mm)) l').
    { rewrite Forall_forall in H |- *. intros x I. apply H. eapply Permutation_in; [apply Permutation_sym; exact P|exact I]. }
    assert (F' : Forall2 (fun a b => fst a = fst b /\ reordered (snd a) (snd b)) m l').
    { clear - F H'. induction F as [|a b l' m [E Hr] _ IHF]; constructor; inversion H'; subst; auto. }
    destruct (Forall2_perm _ _ _ (Permutation_sym P) _ F') as (m' & Pm & Fm). exact (re_obj _ _ _ Pm Fm).
Qed.

(** The levels are the same. *)
Lemma list_max_perm l l' : Permutation l l' -> list_max l = list_max l'.
Proof. induction 1; cbn [list_max fold_right]; unfold list_max in *; lia. Qed.
Lemma list_max_same {A} (f : A -> nat) (R : A -> A -> Prop) l l' m : Permutation l l' -> Forall2 R l' m ->
  (forall a b, In a l -> R a b -> f a = f b) -> list_max (map f l) = list_max (map f m).
Proof.
  intros P F H. rewrite (list_max_perm _ _ (Permutation_map f P)). f_equal.
  assert (H' : forall a b, In a l' -> R a b -> f a = f b) by (intros a b I; apply H; eapply Permutation_in; [apply Permutation_sym; exact P|exact I]).
  clear H P. induction F as [|a b l' m Hab _ IH]; cbn [map]; [reflexivity|]. f_equal; [apply H'; [now left|exact Hab]|]. apply IH. intros x y I. apply H'. now right.
Qed.
Lemma reordered_height d : forall d', reordered d d' -> doc_height d = doc_height d'.
Proof.
  induction d using doc_ind'; intros d' R; inversion R as [|? m F|? l' m P F]; subst; try reflexivity.
  cbn [doc_height]. f_equal. eapply list_max_same; [exact P|exact F|]. intros a b I [E Hr]. rewrite Forall_forall in H. rewrite E, (H a I _ Hr). reflexivity.
Qed.
Lemma reordered_levels d : forall d', reordered d d' -> doc_levels d = doc_levels d'.
Proof.
  induction d using doc_ind'; intros d' R; inversion R as [|? m F|? l' m P F]; subst; try reflexivity; cbn [doc_levels].
  - f_equal. eapply list_max_same; [reflexivity|exact F|]. intros a b I Hr. rewrite Forall_forall in H. exact (H a I _ Hr).
  - f_equal. eapply list_max_same; [exact P|exact F|]. intros a b I [E Hr]. rewrite Forall_forall in H.
    rewrite E, (H a I _ Hr), (reordered_height _ _ Hr). reflexivity.
Qed.
