(** The counted expansion of ExpFrames.v: it gives what the expansion gives, and how far it nests. *)
From Verif Require Import Chars Floats Json Shared Folding EventBuilder Expand DecFrames ExpFrames FramesProof SpecExpand ExpandProps ExpandMean.

Local Open Scope nat_scope.

(** * The same outcome *)
Lemma merge_same n : forall strict t s, fst (merge_frames n strict t s) = merge_objects n strict t s.
Proof.
  induction n as [|n IH]; intros; [reflexivity|]. cbn [merge_frames merge_objects]. revert t.
  induction s as [|[k v] s IHs]; intros; [reflexivity|]. destruct (entry_get t k) as [x|]; [|apply IHs].
  destruct x, v; try (destruct strict; [reflexivity|apply IHs]).
  rewrite fst_andthen. apply bind_same; [apply IH|]. intros; apply IHs.
Qed.
Lemma literal_same n strict e k v : fst (literal_frames n strict e k v) = insert_literal_entry n strict e k v.
Proof.
  destruct n; [reflexivity|]. cbn [literal_frames insert_literal_entry]. destruct (entry_get e k) as [x|]; [|reflexivity].
  destruct x, v; try reflexivity. rewrite fst_andthen. apply bind_same; [apply merge_same|reflexivity].
Qed.
Lemma path_same n : forall strict e segs v, fst (path_frames n strict e segs v) = insert_path_entries n strict e segs v.
Proof.
  induction n as [|n IH]; intros; [reflexivity|]. cbn [path_frames insert_path_entries].
  destruct segs as [|k [|k2 segs]]; [reflexivity|apply literal_same|].
  destruct (entry_get e k) as [[| |]|]; try (destruct strict; [reflexivity|]);
    rewrite fst_andthen; (apply bind_same; [apply IH|reflexivity]).
Qed.
Lemma map_same {A B} (f : A -> counted B) g l : (forall x, fst (f x) = g x) -> fst (map_counted f l) = map_result g l.
Proof.
  intros H. induction l as [|x l IH]; [reflexivity|]. cbn [map_counted map_result]. rewrite fst_andthen.
  apply bind_same; [apply H|]. intros a. rewrite fst_andthen. apply bind_same; [exact IH|reflexivity].
Qed.
Lemma inner_same n : forall strict v, fst (inner_frames n strict v) = expand_inner n strict v.
Proof.
  induction n as [n IH] using lt_wf_ind. intros. destruct n as [|n]; [reflexivity|]. cbn [inner_frames expand_inner].
  destruct v as [p|l|l q]; [reflexivity| |].
  - rewrite fst_andthen. apply bind_same; [|reflexivity]. apply map_same. intros; apply IH; lia.
  - rewrite fst_andthen. destruct n as [|n]; [reflexivity|]. apply bind_same; [|reflexivity]. cbn [call fst].
    generalize (@nil (str * node)) as acc. induction l as [|[k v] l IHl]; intros acc; [reflexivity|].
    rewrite fst_andthen. apply bind_same; [apply IH; lia|]. intros w. rewrite fst_andthen. apply bind_same; [|intros; apply IHl].
    destruct (expandable k q); [apply path_same|apply literal_same].
Qed.

(** * How far it nests *)
(** At most [n] calls; and [n] exactly when refused for the depth. *)
Definition tight {A} (n : nat) (m : counted A) : Prop :=
  snd m <= n /\ (fst m = Err EExpandDepth <-> snd m = n).
Lemma tight_refuse {A} : tight 0 (@here A (Err EExpandDepth)).
Proof. unfold tight. cbn. easy. Qed.
Lemma tight_here {A} n (r : result A) : r <> Err EExpandDepth -> tight (S n) (here r).
Proof. unfold tight. cbn. intros H. split; [lia|]. split; [easy|lia]. Qed.
Lemma tight_call {A} n (m : counted A) : tight n m -> tight (S n) (call m).
Proof. unfold tight. cbn. intros [L H]. split; [lia|]. rewrite H. lia. Qed.
Lemma tight_andthen {A B} n (m : counted A) (f : A -> counted B) :
  tight n m -> (forall a, tight n (f a)) -> tight n (andthen m f).
Proof.
  unfold tight, andthen. intros [L H] K. destruct (fst m) as [a|e]; cbn [fst snd].
  - specialize (K a) as [L' H']. split; [lia|]. rewrite H'. assert (snd m <> n) by (intros C; apply H in C; discriminate).
    lia.
  - split; [exact L|]. rewrite <- H. split; intros E; congruence.
Qed.

Ltac tight_go :=
  match goal with
  | |- tight _ (here (Err EExpandDepth)) => apply tight_refuse
  | |- tight _ (here _) => apply tight_here; try discriminate
  | |- tight _ (call _) => apply tight_call
  | |- tight _ (andthen _ _) => apply tight_andthen; [|intros ?]
  end.

Lemma merge_tight n : forall strict t s, tight n (merge_frames n strict t s).
Proof.
  induction n as [|n IH]; intros; [apply tight_refuse|]. cbn [merge_frames]. revert t.
  induction s as [|[k v] s IHs]; intros; [repeat tight_go|]. destruct (entry_get t k) as [x|]; [|apply IHs].
  destruct x, v; try (destruct strict; [repeat tight_go|apply IHs]).
  repeat tight_go; [apply IH|apply IHs].
Qed.
Lemma literal_tight n strict e k v : tight n (literal_frames n strict e k v).
Proof.
  destruct n; [apply tight_refuse|]. cbn [literal_frames]. destruct (entry_get e k) as [x|]; [|repeat tight_go].
  destruct x, v; try (repeat tight_go; destruct strict; discriminate). repeat tight_go. apply merge_tight.
Qed.
Lemma path_tight n : forall strict e segs v, tight n (path_frames n strict e segs v).
Proof.
  induction n as [|n IH]; intros; [apply tight_refuse|]. cbn [path_frames].
  destruct segs as [|k [|k2 segs]]; [repeat tight_go|apply tight_call, literal_tight|].
  destruct (entry_get e k) as [[| |]|]; try (destruct strict; [repeat tight_go|]); repeat tight_go; apply IH.
Qed.
Lemma map_tight {A B} n (f : A -> counted B) l : (forall x, tight n (f x)) -> tight (S n) (map_counted f l).
Proof. intros H. induction l as [|x l IH]; cbn [map_counted]; repeat tight_go; auto. Qed.
Lemma inner_tight n : forall strict v, tight n (inner_frames n strict v).
Proof.
  induction n as [n IH] using lt_wf_ind. intros. destruct n as [|n]; [apply tight_refuse|]. cbn [inner_frames].
  destruct v as [p|l|l q]; [repeat tight_go| |].
  - repeat tight_go. apply map_tight. intros. apply IH. lia.
  - apply tight_andthen; [|intros; repeat tight_go]. apply tight_call. destruct n as [|n]; [apply tight_refuse|].
    generalize (@nil (str * node)) as acc. induction l as [|[k v] l IHl]; intros acc; [repeat tight_go|].
    apply tight_andthen; [apply tight_call, IH; lia|]. intros w. apply tight_andthen; [|intros; apply IHl].
    destruct (expandable k q); apply tight_call; [apply path_tight|apply literal_tight].
Qed.

(** * Levels that are not needed make no difference *)
Definition stable {A} (m : nat) (x y : counted A) : Prop := fst x <> Err EExpandDepth -> snd x < m -> y = x.
Lemma stable_refuse {A} m y : stable m (@here A (Err EExpandDepth)) y.
Proof. intros H. now destruct H. Qed.
Lemma stable_zero {A} (x y : counted A) : stable 0 x y.
Proof. intros _ H. lia. Qed.
Lemma stable_refl {A} m (x : counted A) : stable m x x.
Proof. easy. Qed.
Lemma stable_call {A} m (x y : counted A) : stable m x y -> stable (S m) (call x) (call y).
Proof. intros H. unfold stable. cbn [call fst snd]. intros N L. rewrite (H N) by lia. reflexivity. Qed.
Lemma stable_andthen {A B} m (x y : counted A) (f g : A -> counted B) :
  stable m x y -> (forall a, stable m (f a) (g a)) -> stable m (andthen x f) (andthen y g).
Proof.
  intros H K. unfold stable, andthen. destruct x as [[a|e] k]; cbn [fst snd].
  - intros N L. rewrite H by (cbn [fst snd]; first [discriminate|lia]). cbn [fst snd]. rewrite (K a N) by lia. reflexivity.
  - intros N L. rewrite H by (cbn [fst snd]; first [congruence|lia]). reflexivity.
Qed.

Ltac stable_go :=
  match goal with
  | |- stable _ ?x ?x => apply stable_refl
  | |- stable _ (call _) _ => apply stable_call
  | |- stable _ (andthen _ _) _ => apply stable_andthen; [|intros ?]
  end.
Lemma merge_stable n : forall m strict t s, stable m (merge_frames n strict t s) (merge_frames m strict t s).
Proof.
  induction n as [|n IH]; intros; [apply stable_refuse|]. destruct m as [|m]; [apply stable_zero|]. cbn [merge_frames]. revert t.
  induction s as [|[k v] s IHs]; intros; [stable_go|]. destruct (entry_get t k) as [x|]; [|apply IHs].
  destruct x, v; try (destruct strict; [stable_go|apply IHs]). repeat stable_go; [apply IH|apply IHs].
Qed.
Lemma literal_stable n m strict e k v : stable m (literal_frames n strict e k v) (literal_frames m strict e k v).
Proof.
  destruct n; [apply stable_refuse|]. destruct m as [|m]; [apply stable_zero|]. cbn [literal_frames].
  destruct (entry_get e k) as [x|]; [|stable_go]. destruct x, v; try stable_go; repeat stable_go. apply merge_stable.
Qed.
Lemma path_stable n : forall m strict e segs v, stable m (path_frames n strict e segs v) (path_frames m strict e segs v).
Proof.
  induction n as [|n IH]; intros; [apply stable_refuse|]. destruct m as [|m]; [apply stable_zero|]. cbn [path_frames].
  destruct segs as [|k [|k2 segs]]; [stable_go|apply stable_call, literal_stable|].
  destruct (entry_get e k) as [[| |]|]; try (destruct strict; [stable_go|]); repeat stable_go; apply IH.
Qed.
Lemma map_stable {A B} m (f g : A -> counted B) l : (forall x, stable m (f x) (g x)) -> stable (S m) (map_counted f l) (map_counted g l).
Proof. intros H. induction l as [|x l IH]; cbn [map_counted]; repeat stable_go; auto. Qed.
Lemma inner_stable n : forall m strict v, stable m (inner_frames n strict v) (inner_frames m strict v).
Proof.
  induction n as [n IH] using lt_wf_ind. intros. destruct n as [|n]; [apply stable_refuse|]. destruct m as [|m]; [apply stable_zero|].
  cbn [inner_frames]. destruct v as [p|l|l q]; [stable_go| |].
  - repeat stable_go. apply map_stable. intros. apply IH. lia.
  - apply stable_andthen; [|intros; stable_go]. apply stable_call. destruct n as [|n]; [apply stable_refuse|]. destruct m as [|m]; [apply stable_zero|].
    generalize (@nil (str * node)) as acc. induction l as [|[k v] l IHl]; intros acc; [stable_go|].
    apply stable_andthen; [apply stable_call, IH; lia|]. intros w. apply stable_andthen; [|intros; apply IHl].
    destruct (expandable k q); apply stable_call; [apply path_stable|apply literal_stable].
Qed.

(** * The expansion of a document, with [top] levels *)
Lemma inner_at_most top strict d :
  snd (inner_frames top strict (node_of d)) <= top /\ snd (inner_frames top strict (node_of d)) < doc_levels d.
Proof.
  destruct (inner_tight top strict (node_of d)) as [L _]. split; [exact L|].
  destruct (Nat.le_gt_cases (doc_levels d) top) as [H|H]; [|lia].
  pose proof (expand_fine strict d (doc_levels d) (le_n _)) as F. unfold fine in F. rewrite <- inner_same in F.
  destruct (inner_tight (doc_levels d) strict (node_of d)) as [L' T].
  assert (S : snd (inner_frames (doc_levels d) strict (node_of d)) < doc_levels d)
    by (destruct (Nat.eq_dec (snd (inner_frames (doc_levels d) strict (node_of d))) (doc_levels d)) as [E|E]; [apply T in E; contradiction|lia]).
  rewrite (inner_stable (doc_levels d) top strict (node_of d) F) by lia. exact S.
Qed.
Lemma inner_at_least top strict d k w : nested d k -> fst (inner_frames top strict (node_of d)) = Ok w ->
  k <= S (snd (inner_frames top strict (node_of d))).
Proof.
  intros N E. pose proof (inner_stable top (S (snd (inner_frames top strict (node_of d)))) strict (node_of d)) as H.
  unfold stable in H. rewrite E in H. specialize (H ltac:(discriminate) ltac:(lia)).
  apply (f_equal fst) in H. rewrite E, inner_same in H. exact (expand_needs strict d k N _ _ H).
Qed.
