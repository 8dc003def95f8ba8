(** Which mode the command line tool chooses. *)
From Verif Require Import Chars Floats Json JsonInd Lex Cli SpecCli.

Local Open Scope nat_scope.

Lemma str_eqb_neq a b : a <> b -> str_eqb a b = false.
Proof. intros H. destruct (str_eqb a b) eqn:E; [|reflexivity]. apply str_eqb_eq in E. contradiction. Qed.
Lemma nil_or_not {A} (l : list A) : l = [] \/ l <> [].
Proof. destruct l; [now left|right; discriminate]. Qed.

Lemma split_app c a b : split_on c (a ++ c :: b) = split_on c a ++ split_on c b.
Proof.
  induction a as [|x a IH]; cbn [app split_on].
  - now rewrite N.eqb_refl.
  - destruct (N.eqb_spec x c) as [->|Hx]; [now rewrite IH|]. rewrite IH.
    pose proof (split_on_not_nil c a) as Hn. destruct (split_on c a) as [|p ps]; [congruence|reflexivity].
Qed.

Definition named (c : str) : bool := negb (is_empty c) && negb (str_eqb c [cDOT]).
Lemma not_named c : named c = false -> c = [] \/ c = [cDOT].
Proof.
  unfold named. destruct c as [|x c]; [auto|]. cbn [is_empty negb andb]. destruct (str_eqb (x :: c) [cDOT]) eqn:E; [|discriminate].
  apply str_eqb_eq in E. auto.
Qed.

Lemma rev_filter_last {A} (P : A -> bool) l c r : rev (filter P l) = c :: r ->
  exists pre post, l = pre ++ c :: post /\ P c = true /\ Forall (fun x => P x = false) post.
Proof.
  revert r. induction l as [|x l IH]; intros r; [discriminate|]. cbn [filter]. destruct (P x) eqn:Px.
  - cbn [rev]. destruct (rev (filter P l)) as [|y q] eqn:E.
    + intros H. injection H as <- <-. exists [], l. split; [reflexivity|]. split; [exact Px|].
      assert (Ef : filter P l = []) by (rewrite <- (rev_involutive (filter P l)), E; reflexivity). clear -Ef.
      induction l as [|z l IH]; [constructor|]. cbn [filter] in Ef. destruct (P z) eqn:Pz; [discriminate|]. constructor; auto.
    + cbn [app]. intros H. injection H as <- _. destruct (IH _ eq_refl) as (pre & post & -> & Hc & Hp). exists (x :: pre), post. auto.
  - intros H. destruct (IH _ H) as (pre & post & -> & Hc & Hp). exists (x :: pre), post. auto.
Qed.
Lemma last_rev_filter {A} (P : A -> bool) pre c post : P c = true -> Forall (fun x => P x = false) post ->
  exists r, rev (filter P (pre ++ c :: post)) = c :: r.
Proof.
  intros Hc Hp. rewrite filter_app. cbn [filter]. rewrite Hc.
  assert (E : filter P post = []) by (induction Hp as [|x l Hx Hl IH]; [reflexivity|cbn [filter]; now rewrite Hx]).
  rewrite E, rev_app_distr. cbn [rev app]. eauto.
Qed.

(** The pieces after the name are the trailing part. *)
Lemma trailing_pieces post : Forall (fun x => named x = false) post -> trailing (concat (map (cons slash) post)).
Proof.
  induction 1 as [|x l Hx Hl IH]; [constructor|]. cbn [map concat]. apply not_named in Hx as [->| ->].
  - cbn [app]. now constructor.
  - cbn [app]. now constructor.
Qed.
Lemma pieces_trailing tail : trailing tail -> exists post, tail = concat (map (cons slash) post) /\ Forall (fun x => named x = false) post.
Proof.
  induction 1 as [|r Hr (post & -> & Hp)|r Hr (post & -> & Hp)].
  - now exists [].
  - exists ([] :: post). split; [reflexivity|]. now constructor.
  - exists ([cDOT] :: post). split; [reflexivity|]. now constructor.
Qed.
Lemma join_tail x post : join slash (x :: post) = x ++ concat (map (cons slash) post).
Proof.
  revert x. induction post as [|y post IH]; intros x; [cbn [join map concat]; now rewrite app_nil_r|].
  change (join slash (x :: y :: post)) with (x ++ slash :: join slash (y :: post)). now rewrite IH.
Qed.
Lemma join_app_mid pre x post : pre <> [] -> join slash (pre ++ x :: post) = join slash pre ++ slash :: join slash (x :: post).
Proof.
  induction pre as [|p pre IH]; [congruence|]. intros _. destruct pre as [|q pre]; [reflexivity|].
  change ((p :: q :: pre) ++ x :: post) with (p :: (q :: pre) ++ x :: post).
  rewrite join_cons by discriminate. rewrite (join_cons slash p (q :: pre)) by discriminate. rewrite IH by discriminate. now rewrite <- app_assoc.
Qed.

(** The last named component of a path. *)
Lemma last_component path c : (exists r, rev (components path) = c :: r) <->
  exists dir tail, path = dir ++ c ++ tail /\ (dir = [] \/ exists d, dir = d ++ [slash]) /\ named c = true /\ ~ In slash c /\ trailing tail.
Proof.
  split.
  - intros [r H]. unfold components in H. fold named in H. apply rev_filter_last in H as (pre & post & E & Hc & Hp). fold named in Hc.
    pose proof (join_split slash path) as J. pose proof (split_on_pieces slash path) as Hs. change 47%N with slash in E. rewrite E in J, Hs.
    apply Forall_app in Hs as [_ Hs]. inversion Hs as [|? ? Hsc _]; subst x l. rewrite <- J.
    destruct (nil_or_not pre) as [->|Hn].
    + exists [], (concat (map (cons slash) post)). cbn [app]. rewrite join_tail. repeat split; auto. now apply trailing_pieces.
    + exists (join slash pre ++ [slash]), (concat (map (cons slash) post)). rewrite join_app_mid by exact Hn. rewrite join_tail.
      rewrite <- app_assoc. cbn [app]. repeat split; auto; [right; eauto|now apply trailing_pieces].
  - intros (dir & tail & -> & Hd & Hc & Hs & Ht). apply pieces_trailing in Ht as (post & -> & Hp). rewrite <- join_tail.
    assert (Hno : Forall (fun s => ~ In slash s) (c :: post)).
    { constructor; [exact Hs|]. eapply Forall_impl; [|exact Hp]. intros x Hx. apply not_named in Hx as [->| ->]; [intros []|]. intros [H|[]]; discriminate H. }
    unfold components. change 47%N with slash. destruct Hd as [->|[d ->]].
    + cbn [app]. rewrite split_join by (auto; discriminate). exact (last_rev_filter named [] c post Hc Hp).
    + rewrite <- app_assoc. cbn [app]. rewrite split_app, split_join by (auto; discriminate). exact (last_rev_filter named _ c post Hc Hp).
Qed.

(** The part after the last dot. *)
Lemma split_dot f after before r : rev (split_on cDOT f) = after :: before :: r ->
  f = join cDOT (rev (before :: r)) ++ cDOT :: after /\ ~ In cDOT after.
Proof.
  intros H. pose proof (join_split cDOT f) as J. pose proof (split_on_pieces cDOT f) as Hs.
  assert (E : split_on cDOT f = rev (before :: r) ++ [after]) by (rewrite <- (rev_involutive (split_on cDOT f)), H; reflexivity).
  rewrite E in J, Hs. apply Forall_app in Hs as [_ Hs]. inversion Hs as [|? ? Ha _]; subst x l. split; [|exact Ha].
  rewrite <- J. set (p := rev (before :: r)). assert (Hp : p <> []) by (unfold p; cbn [rev]; intros K; now apply app_eq_nil in K).
  clearbody p. clear -Hp. induction p as [|x p IH]; [congruence|]. destruct p as [|y p]; [reflexivity|].
  change ((x :: y :: p) ++ [after]) with (x :: (y :: p) ++ [after]). rewrite join_cons by discriminate.
  rewrite (join_cons cDOT x (y :: p)) by discriminate. rewrite IH by discriminate. now rewrite <- app_assoc.
Qed.
Lemma dot_split base e : ~ In cDOT e -> exists before r, rev (split_on cDOT (base ++ cDOT :: e)) = e :: before :: r /\ join cDOT (rev (before :: r)) = base.
Proof.
  intros He. rewrite split_app, rev_app_distr, (split_on_no cDOT e He). cbn [rev app].
  pose proof (split_on_not_nil cDOT base) as Hn. pose proof (join_split cDOT base) as J.
  destruct (rev (split_on cDOT base)) as [|b r] eqn:E.
  - exfalso. apply Hn. rewrite <- (rev_involutive (split_on cDOT base)), E. reflexivity.
  - exists b, r. split; [reflexivity|]. change (join cDOT (rev (b :: r)) = base). rewrite <- E, rev_involutive. exact J.
Qed.

Lemma extension_spec path e : extension path = Some e <-> has_extension path e.
Proof.
  split.
  - unfold extension, file_name. destruct (rev (components path)) as [|c r] eqn:E; [discriminate|].
    destruct (str_eqb c [cDOT; cDOT]) eqn:Edd; [discriminate|].
    destruct (proj1 (last_component path c)) as (dir & tail & -> & Hd & Hc & Hs & Ht); [eauto|].
    destruct (rev (split_on cDOT c)) as [|after [|before q]] eqn:Es; try discriminate.
    destruct (split_dot _ _ _ _ Es) as [Ec Ha]. set (base := join cDOT (rev (before :: q))) in *. clearbody base.
    destruct base as [|x base]; [discriminate|]. cbn [is_empty]. intros H. injection H as <-.
    exists dir, (x :: base), tail. subst c. split; [now rewrite <- app_assoc|]. split; [exact Hd|]. split; [discriminate|].
    split; [intros K; apply Hs; apply in_or_app; now left|]. split; [intros K; apply Hs; apply in_or_app; right; now right|].
    split; [exact Ha|]. split; [exact Ht|]. intros K. rewrite K in Edd. now rewrite str_eqb_refl in Edd.
  - intros (dir & base & tail & -> & Hd & Hb & Hsb & Hse & Hde & Ht & Hdd).
    unfold extension, file_name. destruct (proj2 (last_component (dir ++ base ++ cDOT :: e ++ tail) (base ++ cDOT :: e))) as [r E].
    { exists dir, tail. split; [now rewrite <- app_assoc|]. split; [exact Hd|]. split; [|split; [|exact Ht]].
      - destruct base as [|x base]; [congruence|]. unfold named. cbn [app is_empty negb andb].
        rewrite str_eqb_neq; [reflexivity|]. intros K. injection K as -> K. destruct base; discriminate.
      - intros K. apply in_app_or in K as [K|K]; [auto|]. destruct K as [K|K]; [discriminate K|auto]. }
    rewrite E, str_eqb_neq by exact Hdd. destruct (dot_split base e Hde) as (before & q & Es & Ej).
    rewrite Es. cbv beta iota. unfold str in *. rewrite Ej. destruct base; [congruence|reflexivity].
Qed.

(** Lower case. *)
Definition small (c : char) : Prop := (97 <= c /\ c <= 122)%N.
Lemma lower_small c d : small d -> (lower c = d <-> same_letter c d).
Proof.
  intros [H1 H2]. unfold lower, same_letter. destruct (N.leb_spec 65 c); destruct (N.leb_spec c 90); cbn [andb]; split; intros H'; lia.
Qed.
Lemma lower_word s d : Forall small d -> (map lower s = d <-> Forall2 same_letter s d).
Proof.
  intros Hd. revert s. induction Hd as [|x d Hx Hd IH]; intros s.
  - split; [intros H; destruct s; [constructor|discriminate]|intros H; inversion H; reflexivity].
  - split.
    + destruct s as [|c s]; [discriminate|]. cbn [map]. intros H. injection H as H1 H2. constructor; [now apply lower_small|now apply IH].
    + intros H. inversion H as [|c ? s' ? H1 H2]; subst. cbn [map]. f_equal; [now apply lower_small|now apply IH].
Qed.

Lemma detect_mode_spec a : detect_mode a = MDecode <->
  a_encode a = false /\ (a_decode a = true \/ exists p e, a_input a = Some p /\ has_extension p e /\ Forall2 same_letter e (lit "toon")).
Proof.
  unfold detect_mode. destruct (a_encode a).
  { split; [discriminate|intros [H _]; discriminate]. }
  destruct (a_decode a).
  { split; auto. }
  assert (Hs : Forall small (lit "toon")) by (repeat constructor; cbn; lia).
  destruct (a_input a) as [p|].
  2:{ split; [discriminate|intros (_ & [H|(p & e & H & _)]); discriminate]. }
  destruct (extension p) as [e|] eqn:E.
  - apply (proj1 (extension_spec p e)) in E as E'. split.
    + destruct (str_eqb (map lower e) (lit "json")); [discriminate|]. destruct (str_eqb (map lower e) (lit "toon")) eqn:Et; [|discriminate].
      intros _. split; [reflexivity|]. right. exists p, e. split; [reflexivity|]. split; [exact E'|]. apply str_eqb_eq in Et. now apply lower_word.
    + intros (_ & [H|(p' & e' & H & He & Ht)]); [discriminate|]. injection H as <-. apply (proj2 (extension_spec p e')) in He.
      rewrite E in He. injection He as <-. apply (proj2 (lower_word e _ Hs)) in Ht. rewrite Ht. reflexivity.
  - split; [discriminate|]. intros (_ & [H|(p' & e' & H & He & Ht)]); [discriminate|]. injection H as <-. apply (proj2 (extension_spec p e')) in He. congruence.
Qed.
