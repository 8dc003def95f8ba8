(** Lemmas about strings. *)
From Verif Require Import Chars.

Local Open Scope nat_scope.

Lemma str_eqb_eq a b : str_eqb a b = true <-> a = b.
Proof.
  revert b; induction a as [|x a IH]; intros [|y b]; simpl; split; intros H; try congruence; auto.
  - apply andb_prop in H as [H1 H2]. apply N.eqb_eq in H1. apply IH in H2. congruence.
  - injection H as -> ->. rewrite N.eqb_refl. simpl. now apply IH.
Qed.

Lemma str_eqb_refl a : str_eqb a a = true.
Proof. now apply str_eqb_eq. Qed.

Lemma str_eqb_neq a b : str_eqb a b = false <-> a <> b.
Proof.
  split; intros H.
  - intros ->. rewrite str_eqb_refl in H. discriminate.
  - destruct (str_eqb a b) eqn:E; auto. apply str_eqb_eq in E. contradiction.
Qed.

Lemma str_eq_dec (a b : str) : {a = b} + {a <> b}.
Proof.
  destruct (str_eqb a b) eqn:E.
  - left. now apply str_eqb_eq.
  - right. now apply str_eqb_neq.
Qed.

Lemma str_eqb_sym a b : str_eqb a b = str_eqb b a.
Proof.
  destruct (str_eqb b a) eqn:E.
  - apply str_eqb_eq in E. subst. apply str_eqb_refl.
  - apply str_eqb_neq in E. apply str_eqb_neq. congruence.
Qed.

Lemma contains_In c s : contains c s = true <-> In c s.
Proof.
  unfold contains. rewrite existsb_exists. split.
  - intros (x & Hx & E). apply N.eqb_eq in E. now subst.
  - intros H. exists c. split; auto. apply N.eqb_refl.
Qed.

Lemma contains_not_In c s : contains c s = false <-> ~ In c s.
Proof.
  rewrite <- contains_In. destruct (contains c s); split; intros; congruence.
Qed.

Lemma contains_app c a b : contains c (a ++ b) = contains c a || contains c b.
Proof. unfold contains. apply existsb_app. Qed.

Lemma contains_cons c x s : contains c (x :: s) = (c =? x)%N || contains c s.
Proof. reflexivity. Qed.

(** find_char *)
Lemma find_char_None c s : find_char c s = None <-> ~ In c s.
Proof.
  induction s as [|x s IH]; simpl; [tauto|].
  destruct (N.eqb_spec x c).
  - split; [discriminate|]. intros H; exfalso; apply H; auto.
  - destruct (find_char c s); simpl; split; intros H; try discriminate.
    + exfalso. apply H. right. destruct (in_dec N.eq_dec c s) as [Hi|Hi]; auto.
      apply IH in Hi. discriminate.
    + intros [E|E]; [congruence|]. now apply IH in E.
    + reflexivity.
Qed.

Lemma find_char_app c a b : ~ In c a -> find_char c (a ++ c :: b) = Some (length a).
Proof.
  induction a as [|x a IH]; simpl; intros H.
  - now rewrite N.eqb_refl.
  - destruct (N.eqb_spec x c); [exfalso; auto|].
    rewrite IH by auto. reflexivity.
Qed.

Lemma find_char_app_r c a b :
  ~ In c a -> find_char c (a ++ b) = option_map (fun i => length a + i) (find_char c b).
Proof.
  induction a as [|x a IH]; simpl; intros H.
  - now destruct (find_char c b).
  - destruct (N.eqb_spec x c); [exfalso; auto|].
    rewrite IH by auto. now destruct (find_char c b).
Qed.

Lemma find_char_Some c s i :
  find_char c s = Some i ->
  exists a b, s = a ++ c :: b /\ length a = i /\ ~ In c a.
Proof.
  revert i; induction s as [|x s IH]; simpl; intros i H; [discriminate|].
  destruct (N.eqb_spec x c).
  - injection H as <-. subst. exists [], s. auto.
  - destruct (find_char c s) as [j|] eqn:E; [|discriminate].
    simpl in H. injection H as <-. destruct (IH j eq_refl) as (a & b & -> & L & N).
    exists (x :: a), b. simpl. split; [auto|]. split; [auto|].
    intros [H|H]; auto.
Qed.

Lemma skipn_app_exact {A} (a b : list A) n : n = length a -> skipn n (a ++ b) = b.
Proof. intros ->. now rewrite skipn_app, skipn_all, Nat.sub_diag. Qed.

Lemma firstn_app_exact {A} (a b : list A) n : n = length a -> firstn n (a ++ b) = a.
Proof. intros ->. rewrite firstn_app, firstn_all, Nat.sub_diag. simpl. now rewrite app_nil_r. Qed.

(** starts_with *)
Lemma starts_with_str_app p s : starts_with_str p (p ++ s) = true.
Proof. induction p; simpl; auto. now rewrite N.eqb_refl. Qed.

Lemma starts_with_str_true p s : starts_with_str p s = true -> exists r, s = p ++ r.
Proof.
  revert s; induction p as [|x p IH]; intros s H; simpl in *.
  - now exists s.
  - destruct s as [|y s]; [discriminate|].
    apply andb_prop in H as [H1 H2]. apply N.eqb_eq in H1. apply IH in H2 as (r & ->).
    exists r. now subst.
Qed.

Lemma starts_with_true c s : starts_with c s = true -> exists r, s = c :: r.
Proof. destruct s; simpl; intros H; [discriminate|]. apply N.eqb_eq in H. subst. eauto. Qed.

(** Whitespace trimming. *)
Definition all_ws (s : str) : Prop := Forall (fun c => is_ws c = true) s.
(** No whitespace at either end. *)
Definition tight (s : str) : Prop :=
  match s with [] => True | c :: _ => is_ws c = false /\ is_ws (last s 0%N) = false end.

Lemma trim_start_app_ws a s : all_ws a -> trim_start (a ++ s) = trim_start s.
Proof. induction 1 as [|x a Hx Ha IH]; simpl; auto. now rewrite Hx. Qed.

Lemma trim_start_nonws c s : is_ws c = false -> trim_start (c :: s) = c :: s.
Proof. simpl. intros ->. reflexivity. Qed.

Lemma trim_start_spec s :
  exists l, s = l ++ trim_start s /\ all_ws l /\
            (trim_start s = [] \/ exists c r, trim_start s = c :: r /\ is_ws c = false).
Proof.
  induction s as [|x s (l & E & Hl & Hs)]; simpl.
  - exists []. repeat split; auto. constructor.
  - destruct (is_ws x) eqn:Ex.
    + exists (x :: l). simpl. rewrite <- E. repeat split; auto. constructor; auto.
    + exists []. repeat split; [constructor|]. right. eauto.
Qed.

Lemma trim_start_idem s : trim_start (trim_start s) = trim_start s.
Proof.
  destruct (trim_start_spec s) as (_ & _ & _ & [H|(c & r & H & Hc)]); rewrite H; auto.
  now apply trim_start_nonws.
Qed.

Lemma all_ws_app a b : all_ws (a ++ b) <-> all_ws a /\ all_ws b.
Proof. apply Forall_app. Qed.

Lemma all_ws_rev a : all_ws a -> all_ws (rev a).
Proof. unfold all_ws. intros H. now apply Forall_rev. Qed.

Lemma trim_start_all_ws s : all_ws s -> trim_start s = [].
Proof. intros H. rewrite <- (app_nil_r s). now rewrite trim_start_app_ws. Qed.

Lemma trim_end_app_ws s a : all_ws a -> trim_end (s ++ a) = trim_end s.
Proof.
  intros H. unfold trim_end. rewrite rev_app_distr, trim_start_app_ws; auto using all_ws_rev.
Qed.

Lemma last_app_single {A} (l : list A) x d : last (l ++ [x]) d = x.
Proof. apply last_last. Qed.

Lemma trim_end_nonws s c : is_ws c = false -> trim_end (s ++ [c]) = s ++ [c].
Proof.
  intros H. unfold trim_end. rewrite rev_app_distr. simpl. rewrite H. simpl.
  now rewrite rev_involutive.
Qed.

Lemma list_last_cases {A} (l : list A) : l = [] \/ exists a x, l = a ++ [x].
Proof. destruct l using rev_ind; eauto. Qed.

Lemma tight_inv s : tight s -> s = [] \/ (exists a c, s = a ++ [c] /\ is_ws c = false) /\
                                         (exists c r, s = c :: r /\ is_ws c = false).
Proof.
  destruct s as [|x s]; [auto|]. intros [H1 H2]. right.
  destruct (list_last_cases (x :: s)) as [E|(a & c & E)]; [discriminate|].
  split; [exists a, c | exists x, s]; split; auto.
  rewrite E in H2. now rewrite last_last in H2.
Qed.

Lemma trim_tight s : tight s -> trim s = s.
Proof.
  intros H. apply tight_inv in H as [->|((a & c & E & Hc) & (c' & r & E' & Hc'))]; [reflexivity|].
  unfold trim. rewrite E' at 1. rewrite trim_start_nonws by auto. rewrite <- E', E.
  now apply trim_end_nonws.
Qed.

Lemma trim_ws_l a s : all_ws a -> trim (a ++ s) = trim s.
Proof. intros H. unfold trim. now rewrite trim_start_app_ws. Qed.

Lemma trim_end_cons_nonws c s : is_ws c = false -> exists r, trim_end (c :: s) = c :: r.
Proof.
  intros H. unfold trim_end. simpl.
  destruct (trim_start_spec (rev s)) as (l & E & Hl & [Hs|(d & r & Hs & Hd)]).
  - rewrite E, <- app_assoc, Hs. simpl. rewrite trim_start_app_ws by auto.
    rewrite trim_start_nonws by auto. simpl. eauto.
  - rewrite E, <- app_assoc, trim_start_app_ws, Hs by auto. simpl. rewrite Hd.
    simpl. rewrite !rev_app_distr. simpl. eauto.
Qed.

Lemma trim_end_spec s :
  exists r, s = trim_end s ++ r /\ all_ws r /\
            (trim_end s = [] \/ exists a c, trim_end s = a ++ [c] /\ is_ws c = false).
Proof.
  unfold trim_end. destruct (trim_start_spec (rev s)) as (l & E & Hl & Hs).
  exists (rev l). split; [|split].
  - rewrite <- rev_app_distr, <- E. now rewrite rev_involutive.
  - now apply all_ws_rev.
  - destruct Hs as [->|(c & r & -> & Hc)]; [auto|]. right. exists (rev r), c. auto.
Qed.

(** Decomposition of a string around its trimmed part. *)
Lemma trim_spec s :
  exists l r, s = l ++ trim s ++ r /\ all_ws l /\ all_ws r /\ tight (trim s).
Proof.
  unfold trim. destruct (trim_start_spec s) as (l & E & Hl & Hs).
  destruct (trim_end_spec (trim_start s)) as (r & E' & Hr & He).
  exists l, r. split; [congruence|]. split; auto. split; auto.
  destruct Hs as [Hs|(c & q & Hs & Hc)].
  - rewrite Hs. simpl. exact I.
  - rewrite Hs in *. destruct (trim_end_cons_nonws c q Hc) as (q' & Eq). rewrite Eq in *.
    unfold tight. split; auto.
    destruct He as [He|(a & d & He & Hd)]; [discriminate|]. rewrite He. now rewrite last_last.
Qed.

Lemma trim_tight_out s : tight (trim s).
Proof. destruct (trim_spec s) as (_ & _ & _ & _ & _ & H). exact H. Qed.

Lemma trim_idem s : trim (trim s) = trim s.
Proof. apply trim_tight, trim_tight_out. Qed.

Lemma trim_eq_tight s : trim s = s <-> tight s.
Proof. split; intros H; [rewrite <- H; apply trim_tight_out | now apply trim_tight]. Qed.

Lemma trim_nil s : trim s = [] <-> all_ws s.
Proof.
  split; intros H.
  - destruct (trim_spec s) as (l & r & E & Hl & Hr & _). rewrite H in E. simpl in E.
    rewrite E. now apply all_ws_app.
  - unfold trim. now rewrite trim_start_all_ws.
Qed.

Lemma trim_ws_r s a : all_ws a -> trim (s ++ a) = trim s.
Proof.
  intros Ha. unfold trim.
  destruct (trim_start_spec s) as (l & E & Hl & [Hs|(c & r & Hs & Hc)]).
  - rewrite Hs in *. rewrite app_nil_r in E. subst l.
    rewrite trim_start_app_ws by auto. now rewrite trim_start_all_ws.
  - rewrite Hs. rewrite E, Hs, <- app_assoc, trim_start_app_ws by auto.
    simpl app at 1. rewrite trim_start_nonws by auto.
    change (c :: r ++ a) with ((c :: r) ++ a). now apply trim_end_app_ws.
Qed.

Lemma trim_mid l s r : all_ws l -> all_ws r -> tight s -> trim (l ++ s ++ r) = s.
Proof. intros. rewrite trim_ws_l, trim_ws_r by auto. now apply trim_tight. Qed.

Lemma tight_nonws s : Forall (fun c => is_ws c = false) s -> tight s.
Proof.
  intros H. destruct s as [|x s]; simpl; auto. split.
  - now inversion H.
  - rewrite Forall_forall in H. apply H. change (match s with [] => x | _ => last s 0%N end) with (last (x :: s) 0%N).
    destruct (list_last_cases (x :: s)) as [E|(a & c & E)]; [discriminate|].
    rewrite E, last_last. apply in_or_app. right. now left.
Qed.

Lemma tight_app_ends a x b y : is_ws x = false -> is_ws y = false -> a ++ [y] = x :: b -> tight (x :: b).
Proof. intros Hx Hy E. split; auto. rewrite <- E. now rewrite last_last. Qed.

Lemma tight_cons_snoc x s y : is_ws x = false -> is_ws y = false -> tight (x :: s ++ [y]).
Proof.
  intros. split; auto. change (x :: s ++ [y]) with ((x :: s) ++ [y]). now rewrite last_last.
Qed.

Lemma is_empty_true {A} (l : list A) : is_empty l = true <-> l = [].
Proof. destruct l; simpl; split; congruence. Qed.

Lemma is_empty_false {A} (l : list A) : is_empty l = false <-> l <> [].
Proof. destruct l; simpl; split; congruence. Qed.

(** split / join *)
Lemma split_on_not_nil c s : split_on c s <> [].
Proof. destruct s; simpl; [discriminate|]. destruct (_ =? _)%N; [discriminate|].
       destruct (split_on c s); discriminate. Qed.

Lemma join_split c s : join c (split_on c s) = s.
Proof.
  induction s as [|x s IH]; simpl; auto.
  destruct (N.eqb_spec x c) as [->|].
  - pose proof (split_on_not_nil c s). destruct (split_on c s) eqn:E; [congruence|].
    rewrite <- IH. reflexivity.
  - pose proof (split_on_not_nil c s). destruct (split_on c s) as [|p ps] eqn:E; [congruence|].
    rewrite <- IH. destruct ps; reflexivity.
Qed.

Lemma split_on_no c s : ~ In c s -> split_on c s = [s].
Proof.
  induction s as [|x s IH]; simpl; intros H; auto.
  destruct (N.eqb_spec x c); [exfalso; auto|]. now rewrite IH by auto.
Qed.

Lemma split_on_app c a s : ~ In c a -> split_on c (a ++ c :: s) = a :: split_on c s.
Proof.
  induction a as [|x a IH]; simpl; intros H.
  - now rewrite N.eqb_refl.
  - destruct (N.eqb_spec x c); [exfalso; auto|]. now rewrite IH by auto.
Qed.

Lemma split_join c l : l <> [] -> Forall (fun s => ~ In c s) l -> split_on c (join c l) = l.
Proof.
  induction l as [|x l IH]; intros Hn H; [congruence|].
  inversion H; subst. destruct l as [|y l].
  - simpl. now apply split_on_no.
  - change (join c (x :: y :: l)) with (x ++ c :: join c (y :: l)).
    rewrite split_on_app by auto. f_equal. apply IH; auto. discriminate.
Qed.

Lemma split_on_pieces c s : Forall (fun p => ~ In c p) (split_on c s).
Proof.
  induction s as [|x s IH]; simpl; [repeat constructor; auto|].
  destruct (N.eqb_spec x c).
  - constructor; auto.
  - destruct (split_on c s); inversion IH; subst; constructor; auto.
    + intros [E|[]]; congruence.
    + intros [E|E]; auto.
Qed.

Lemma join_cons c x l : l <> [] -> join c (x :: l) = x ++ c :: join c l.
Proof. destruct l; [congruence|reflexivity]. Qed.

Lemma in_join c l x : In x (join c l) -> x = c \/ exists s, In s l /\ In x s.
Proof.
  induction l as [|y l IH]; simpl; [tauto|].
  destruct l as [|z l].
  - intros H. right. exists y. auto.
  - rewrite in_app_iff. simpl In at 2. intros [H|[H|H]].
    + right. exists y. auto.
    + left. auto.
    + destruct (IH H) as [E|(s & Hs & Hx)]; [auto|]. right. exists s. simpl in *. tauto.
Qed.

(** spaces *)
Lemma length_spaces n : length (spaces n) = n.
Proof. apply repeat_length. Qed.

Lemma spaces_app n m : spaces (n + m) = spaces n ++ spaces m.
Proof. apply repeat_app. Qed.

Lemma in_spaces n c : In c (spaces n) -> c = cSPACE.
Proof. apply repeat_spec. Qed.

Lemma all_ws_spaces n : all_ws (spaces n).
Proof. apply Forall_forall. intros c H. apply in_spaces in H. now subst. Qed.
