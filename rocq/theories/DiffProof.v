(** One primitive value replaced: one line of the text differs. *)
From Verif Require Import Chars Floats Json Shared EncPrim Normalize Encoders EncodeApi Lex Spec JsonEq LayEnc TextProof SpecEdit SpecText.

Local Open Scope nat_scope.

Definition flip (R : prim -> prim -> Prop) (p q : prim) : Prop := R q p.
Lemma one_flip R v w : one_value R v w -> one_value (flip R) w v.
Proof. induction 1; constructor; auto. Qed.

Section Diff.
Variable dl : char.
Variable fold : bool.
Variable depth : N.
Notation token := (token f64_to_string dl).
Notation row := (row f64_to_string dl).
Notation member := (member f64_to_string dl fold depth).
Notation value_of := (value_of f64_to_string dl fold depth).
Notation members := (members f64_to_string dl fold depth).
Notation array := (array f64_to_string dl fold depth).
Notation items := (items f64_to_string dl fold depth).
Notation item := (item f64_to_string dl fold depth).
Notation document := (document f64_to_string dl fold depth).

Definition one_member (R : prim -> prim -> Prop) (l m : list (str * json)) : Prop :=
  exists a k v w b, l = a ++ (k, v) :: b /\ m = a ++ (k, w) :: b /\ one_value R v w.
Definition one_item (R : prim -> prim -> Prop) (l m : list json) : Prop :=
  exists a v w b, l = a ++ v :: b /\ m = a ++ w :: b /\ one_value R v w.
Lemma one_obj R l v : one_value R (JObj l) v <-> exists m, v = JObj m /\ one_member R l m.
Proof.
  split.
  - intros H. inversion H; subst. eexists. split; [reflexivity|]. do 5 eexists. eauto.
  - intros (m & -> & a & k & x & y & b & -> & -> & H). now constructor.
Qed.
Lemma one_arr R l v : one_value R (JArr l) v <-> exists m, v = JArr m /\ one_item R l m.
Proof.
  split.
  - intros H. inversion H; subst. eexists. split; [reflexivity|]. do 4 eexists. eauto.
  - intros (m & -> & a & x & y & b & -> & -> & H). now constructor.
Qed.
Lemma member_keys R l m : one_member R l m -> map fst m = map fst l.
Proof. intros (a & k & v & w & b & -> & -> & _). rewrite !map_app. reflexivity. Qed.
Lemma item_length R l m : one_item R l m -> length m = length l.
Proof. intros (a & v & w & b & -> & -> & _). rewrite !app_length. reflexivity. Qed.
Lemma one_member_cons R x l m : one_member R (x :: l) m ->
  (exists w, m = (fst x, w) :: l /\ one_value R (snd x) w) \/ (exists m', m = x :: m' /\ one_member R l m').
Proof.
  intros (a & k & v & w & b & E & -> & H). destruct a as [|y a]; cbn in E; injection E as -> ->.
  - left. exists w. auto.
  - right. eexists. split; [reflexivity|]. exists a, k, v, w, b. auto.
Qed.
Lemma one_item_cons R x l m : one_item R (x :: l) m ->
  (exists w, m = w :: l /\ one_value R x w) \/ (exists m', m = x :: m' /\ one_item R l m').
Proof.
  intros (a & v & w & b & E & -> & H). destruct a as [|y a]; cbn in E; injection E as -> ->.
  - left. exists w. auto.
  - right. eexists. split; [reflexivity|]. exists a, v, w, b. auto.
Qed.
Lemma one_item_nil R m : ~ one_item R [] m.
Proof. intros (a & v & w & b & E & _). destruct a; discriminate. Qed.
Lemma one_member_nil R m : ~ one_member R [] m.
Proof. intros (a & k & v & w & b & E & _). destruct a; discriminate. Qed.

(** ** Chains, inline arrays, tables *)
Lemma chain_one R v ks z : chain v ks z -> forall w, one_value R v w -> exists z', chain w ks z' /\ one_value R z z'.
Proof.
  induction 1 as [v|k v ks z _ IH]; intros w H; [exists w; split; [constructor|exact H]|].
  apply one_obj in H as (m & -> & H). apply one_member_cons in H as [(x & -> & H)|(m' & -> & H)]; [|now apply one_member_nil in H].
  cbn in *. destruct (IH _ H) as (z' & C & O). exists z'. split; [now constructor|exact O].
Qed.
Lemma folds_one R c sibs k v ks z w : folds fold c sibs k v ks z -> one_value R v w ->
  exists z', folds fold c sibs k w ks z' /\ one_value R z z'.
Proof.
  intros (F & N & C & B & M & I & S & L) H. destruct (chain_one _ _ _ _ C _ H) as (z' & C' & O). exists z'. split; [|exact O].
  repeat (split; [assumption|]). split; [|auto]. destruct M as [M|M]; [now left|right]. intros k' v' ->.
  apply one_flip in O. apply one_obj in O as (m & -> & O). apply one_member_cons in O as [(x & -> & O)|(m' & -> & O)]; [|now apply one_member_nil in O].
  now apply (M k' x).
Qed.
Lemma prims_one R ps : forall l, one_item R (map JPrim ps) l -> exists a p p' b, ps = a ++ p :: b /\ l = map JPrim (a ++ p' :: b) /\ R p p'.
Proof.
  induction ps as [|p ps IH]; intros l H; cbn [map] in H; [now apply one_item_nil in H|].
  apply one_item_cons in H as [(w & -> & H)|(m & -> & H)].
  - inversion H; subst. exists [], p, p', ps. auto.
  - destruct (IH _ H) as (a & q & q' & b & -> & -> & Hr). exists (p :: a), q, q', b. auto.
Qed.

Lemma elt_cases {A} (x z : A) : forall a b c d, a ++ x :: b = c ++ z :: d ->
  (a = c /\ x = z /\ b = d) \/ (exists u, c = a ++ x :: u /\ b = u ++ z :: d) \/ (exists u, a = c ++ z :: u /\ d = u ++ x :: b).
Proof.
  induction a as [|y a IH]; intros b c d E; (destruct c as [|y' c]; cbn in E; injection E as E1 E2); subst.
  - auto.
  - right. left. exists c. auto.
  - right. right. exists a. auto.
  - destruct (IH _ _ _ E2) as [(-> & -> & ->)|[(u & -> & ->)|(u & -> & ->)]]; [auto|right; left; exists u; auto|right; right; exists u; auto].
Qed.
Lemma first_one R a k v w b f p : one_value R v w -> first_member (a ++ (k, v) :: b) f (JPrim p) ->
  exists p', first_member (a ++ (k, w) :: b) f (JPrim p') /\ (f <> k -> p' = p) /\ (f = k -> ~ In k (map fst a) -> R p p').
Proof.
  intros H (A & B & E & N). destruct (elt_cases _ _ _ _ _ _ E) as [(-> & E1 & ->)|[(u & -> & ->)|(u & -> & ->)]].
  - injection E1 as -> ->. inversion H; subst. exists p'. split; [exists A, B; auto|]. split; [congruence|auto].
  - exists p. split; [|split; [reflexivity|]].
    + exists (a ++ (k, w) :: u), B. split; [now rewrite <- app_assoc|]. rewrite map_app in *. exact N.
    + intros -> _. exfalso. apply N. rewrite map_app. apply in_elt.
  - exists p. split; [|split; [reflexivity|]].
    + exists A, (u ++ (k, w) :: b). split; [now rewrite <- app_assoc|exact N].
    + intros -> Hn. exfalso. apply Hn. rewrite map_app. apply in_elt.
Qed.
Lemma cells_one R a k v w b fs cells : one_value R v w -> Forall2 (fun f p => first_member (a ++ (k, v) :: b) f (JPrim p)) fs cells ->
  exists cells', Forall2 (fun f p => first_member (a ++ (k, w) :: b) f (JPrim p)) fs cells' /\
    (~ In k fs -> cells' = cells) /\
    (NoDup fs -> ~ In k (map fst a) -> In k fs -> exists A p p' B, cells = A ++ p :: B /\ cells' = A ++ p' :: B /\ R p p').
Proof.
  intros H. induction 1 as [|f p fs cells Hf _ (cells' & F & I & J)]; [exists []; repeat split; [constructor|intros _ _ []]|].
  destruct (first_one R a k v w b f p H Hf) as (p' & Hp & Ne & Eq). exists (p' :: cells'). split; [now constructor|]. split.
  - intros Nk. rewrite Ne, I by (cbn in Nk; intuition congruence). reflexivity.
  - intros Nd Nk Ik. inversion Nd as [|? ? Nf Nd']; subst. destruct (list_eq_dec N.eq_dec f k) as [->|Hne].
    + rewrite (I Nf). exists [], p, p', cells. auto.
    + rewrite (Ne Hne). destruct Ik as [Ik|Ik]; [congruence|]. destruct (J Nd' Nk Ik) as (A & q & q' & B & -> & -> & Hr).
      exists (p :: A), q, q', B. auto.
Qed.
Lemma table_row_one R fields v w cells : one_value R v w -> table_row fields v cells ->
  exists cells', table_row fields w cells' /\
    (distinct_keys v -> NoDup fields -> exists A p p' B, cells = A ++ p :: B /\ cells' = A ++ p' :: B /\ R p p').
Proof.
  intros H (es & -> & L & F). apply one_obj in H as (es' & -> & a & k & x & z & b & -> & -> & H).
  destruct (cells_one R a k x z b fields cells H F) as (cells' & F' & _ & J). exists cells'. split.
  - eexists. split; [reflexivity|]. split; [rewrite <- L, !app_length; reflexivity|exact F'].
  - intros D Nf. inversion D as [| |? Nd _]; subst. rewrite map_app in Nd. cbn [map fst] in Nd.
    assert (Nk : ~ In k (map fst a)).
    { apply NoDup_remove_2 in Nd. intros I. apply Nd. apply in_or_app. now left. }
    apply J; [exact Nf|exact Nk|].
    assert (Inc : incl (map fst (a ++ (k, x) :: b)) fields).
    { apply NoDup_length_incl; [exact Nf|rewrite map_length; lia|]. intros f Hf.
      clear - F Hf. induction F as [|g p gs ps (A & B & E & _) _ IH]; [destruct Hf|]. destruct Hf as [<-|Hf]; [|auto].
      rewrite E, map_app. apply in_elt. }
    apply Inc. rewrite map_app. apply in_elt.
Qed.
Lemma table_one R l m fields rows : one_item R l m -> table l fields rows ->
  exists A c c' B, rows = A ++ c :: B /\ table m fields (A ++ c' :: B) /\
    (Forall distinct_keys l -> exists A' p p' B', c = A' ++ p :: B' /\ c' = A' ++ p' :: B' /\ R p p').
Proof.
  intros (a & v & w & b & -> & -> & H) (Ne & (first & r & E & Ef) & F). apply Forall2_app_inv_l in F as (A & B0 & Fa & Fb & ->).
  inversion Fb as [|? c ? B Fc Fb']; subst. destruct (table_row_one R _ v w c H Fc) as (c' & Fc' & J).
  exists A, c, c', B. split; [reflexivity|]. split.
  - split; [exact Ne|]. split.
    + destruct a as [|x a]; cbn in E; injection E as -> Er.
      * apply one_obj in H as (es & -> & H). exists es, b. split; [reflexivity|]. now apply member_keys in H.
      * exists first, (a ++ w :: b). auto.
    + apply Forall2_app; [exact Fa|]. now constructor.
  - intros D. apply Forall_app in D as (Da & Db). inversion Db as [|? ? Dv Db']; subst. apply J; [exact Dv|].
    destruct a as [|x a]; cbn in E; injection E as -> _; [|inversion Da; subst; clear Dv; rename H2 into Dv]; inversion Dv; subst; assumption.
Qed.

(** ** Lines *)
Definition line_change (R : prim -> prim -> Prop) (s s' : str) : Prop :=
  exists x t t' y p p', s = x ++ t ++ y /\ s' = x ++ t' ++ y /\ R p p' /\ token p t /\ token p' t'.
Definition one_line (Q : str -> str -> Prop) (ls ls' : list dline) : Prop :=
  exists a d s s' b, ls = a ++ (d, s) :: b /\ ls' = a ++ (d, s') :: b /\ Q s s'.
Lemma line_app a b s s' Q : one_line Q s s' -> one_line Q (a ++ s ++ b) (a ++ s' ++ b).
Proof.
  intros (u & d & x & x' & w & -> & -> & H). exists (a ++ u), d, x, x', (w ++ b). rewrite <- !app_assoc. auto.
Qed.
Lemma line_left a s s' Q : one_line Q s s' -> one_line Q (a ++ s) (a ++ s').
Proof. intros H. apply (line_app a []) in H. now rewrite !app_nil_r in H. Qed.
Lemma line_right b s s' Q : one_line Q s s' -> one_line Q (s ++ b) (s' ++ b).
Proof. apply (line_app []). Qed.
Lemma line_one d s s' (Q : str -> str -> Prop) : Q s s' -> one_line Q [(d, s)] [(d, s')].
Proof. intros H. exists [], d, s, s', []. auto. Qed.
Lemma line_weaken (Q Q' : str -> str -> Prop) ls ls' : (forall s s', Q s s' -> Q' s s') -> one_line Q ls ls' -> one_line Q' ls ls'.
Proof. intros W (a & d & s & s' & b & E & E' & H). exists a, d, s, s', b. auto. Qed.
Lemma change_app R a b s s' : line_change R s s' -> line_change R (a ++ s ++ b) (a ++ s' ++ b).
Proof.
  intros (x & t & t' & y & p & p' & -> & -> & H). exists (a ++ x), t, t', (y ++ b), p, p'. rewrite <- !app_assoc. auto.
Qed.
Lemma change_left R a s s' : line_change R s s' -> line_change R (a ++ s) (a ++ s').
Proof. intros H. apply (change_app R a []) in H. now rewrite !app_nil_r in H. Qed.
Lemma change_token (R : prim -> prim -> Prop) p p' : R p p' -> line_change R (encode_primitive p dl) (encode_primitive p' dl).
Proof. intros H. exists [], (encode_primitive p dl), (encode_primitive p' dl), [], p, p'. rewrite !app_nil_r. repeat split; auto; now apply token_spec. Qed.

Lemma row_change (R : prim -> prim -> Prop) A p p' B r : R p p' -> row (A ++ p :: B) r -> exists r', row (A ++ p' :: B) r' /\ line_change R r r'.
Proof.
  intros H Hr. apply row_spec in Hr as ->. exists (encode_and_join_primitives (A ++ p' :: B) dl). split; [now apply row_spec|].
  unfold encode_and_join_primitives. rewrite !map_app. cbn [map]. set (f := fun q => encode_primitive q dl).
  assert (J : forall a b, exists x y, forall t, join dl (map f a ++ t :: map f b) = x ++ t ++ y).
  { clear. intros a b. induction a as [|q a (x & y & IH)].
    - destruct b as [|q b]; [exists [], []; intros t; cbn; now rewrite app_nil_r|].
      exists [], (dl :: join dl (map f (q :: b))). intros t. reflexivity.
    - exists (f q ++ dl :: x), y. intros t. rewrite <- app_assoc. cbn [map app]. rewrite <- (IH t). destruct a; reflexivity. }
  destruct (J A B) as (x & y & E). change (fun p0 => encode_primitive p0 dl) with f. rewrite !E.
  apply change_app. now apply change_token.
Qed.

Variable R : prim -> prim -> Prop.
Definition when (D : Prop) (s s' : str) : Prop := D -> line_change R s s'.
Lemma when_weaken (D D' : Prop) ls ls' : (D' -> D) -> one_line (when D) ls ls' -> one_line (when D') ls ls'.
Proof. intros H. apply line_weaken. unfold when. auto. Qed.
Lemma when_head D d t ls L : one_line (when D) ((d, t) :: ls) L -> forall e pre, exists t' ls', L = (d, t') :: ls' /\
  one_line (when D) ((e, pre ++ t) :: ls) ((e, pre ++ t') :: ls').
Proof.
  intros (a & d0 & s & s' & b & E & -> & H) e pre. destruct a as [|x a]; cbn in E.
  - injection E as -> -> ->. exists s', b. split; [reflexivity|]. exists [], e, (pre ++ s), (pre ++ s'), b.
    repeat split. intros Hd. apply change_left. auto.
  - injection E as <- ->. exists t, (a ++ (d0, s') :: b). split; [reflexivity|]. exists ((e, pre ++ t) :: a), d0, s, s', b. auto.
Qed.

Lemma text_diff :
  (forall c sibs d kv ls, member c sibs d kv ls -> forall w, one_value R (snd kv) w ->
     exists ls', member c sibs d (fst kv, w) ls' /\ one_line (when (distinct_keys (snd kv))) ls ls') /\
  (forall c d k v ls, value_of c d k v ls -> forall w, one_value R v w ->
     exists ls', value_of c d k w ls' /\ one_line (when (distinct_keys v)) ls ls') /\
  (forall c sibs d l ls, members c sibs d l ls -> forall m, one_member R l m ->
     exists ls', members c sibs d m ls' /\ one_line (when (Forall (fun kv => distinct_keys (snd kv)) l)) ls ls') /\
  (forall t key d l ls, array t key d l ls -> forall m, one_item R l m ->
     exists ls', array t key d m ls' /\ one_line (when (Forall distinct_keys l)) ls ls') /\
  (forall d l ls, items d l ls -> forall m, one_item R l m ->
     exists ls', items d m ls' /\ one_line (when (Forall distinct_keys l)) ls ls') /\
  (forall d v ls, item d v ls -> forall w, one_value R v w ->
     exists ls', item d w ls' /\ one_line (when (distinct_keys v)) ls ls').
Proof.
  assert (DO : forall l, distinct_keys (JObj l) -> Forall (fun kv => distinct_keys (snd kv)) l) by (intros l D; inversion D; auto).
  assert (DA : forall l, distinct_keys (JArr l) -> Forall distinct_keys l) by (intros l D; inversion D; auto).
  apply text_mutind.
  - (* folded *) intros c sibs d k v ks z ls F _ IH w H. cbn [fst snd] in *. destruct (folds_one _ _ _ _ _ _ _ _ F H) as (z' & F' & O).
    destruct (IH _ O) as (ls' & V & L). exists ls'. split; [eapply me_folded; eauto|]. eapply when_weaken; [|exact L].
    destruct F as (_ & _ & C & _). clear - C DO. induction C as [|k v ks z _ IH]; auto. intros D. apply DO in D. inversion D; auto.
  - (* plain *) intros c sibs d k v ls F _ IH w H. cbn [fst snd] in *. destruct (IH _ H) as (ls' & V & L). exists ls'. split; [|exact L].
    apply me_plain; [|exact V]. intros ks z F'. destruct (folds_one _ _ _ _ _ _ _ _ F' (one_flip _ _ _ H)) as (z' & F'' & _). eapply F; eauto.
  - (* prim *) intros c d k p kt t K T w H. inversion H; subst. eexists. split; [apply vo_prim; [exact K|apply token_spec; reflexivity]|].
    apply line_one. intros _. apply token_spec in T as ->. pose proof (change_left R (kt ++ [cCOLON; cSPACE]) _ _ (change_token R p p' ltac:(assumption))) as C.
    rewrite <- !app_assoc in C. exact C.
  - (* obj *) intros c d k l kt ls K _ IH w H. apply one_obj in H as (m & -> & H). destruct (IH _ H) as (ls' & V & L).
    eexists. split; [apply vo_obj; [exact K|rewrite (member_keys _ _ _ H); exact V]|]. apply (line_left [_]).
    eapply when_weaken; [apply DO|exact L].
  - (* arr *) intros c d k l ls _ IH w H. apply one_arr in H as (m & -> & H). destruct (IH _ H) as (ls' & V & L).
    exists ls'. split; [now apply vo_arr|]. eapply when_weaken; [apply DA|exact L].
  - intros c sibs d m H. now apply one_member_nil in H.
  - intros c sibs d [k v] l a b M IH1 Ms IH2 m H. apply one_member_cons in H as [(w & -> & H)|(m' & -> & H)].
    + destruct (IH1 _ H) as (a' & M' & L). exists (a' ++ b). split; [now constructor|]. apply line_right. eapply when_weaken; [|exact L].
      intros D. now inversion D.
    + destruct (IH2 _ H) as (b' & M' & L). exists (a ++ b'). split; [now constructor|]. apply line_left. eapply when_weaken; [|exact L].
      intros D. now inversion D.
  - intros t key d h _ m H. now apply one_item_nil in H.
  - (* inline *) intros t key d p ps h r Hh Hr m H. destruct (prims_one _ _ _ H) as (a & q & q' & b & E & -> & Hq).
    rewrite E in Hr. destruct (row_change R a q q' b r Hq Hr) as (r' & Hr' & C).
    assert (E' : exists p' ps', a ++ q' :: b = p' :: ps' /\ length ps' = length ps).
    { destruct a as [|x a]; cbn in E; injection E as -> ->; cbn; eexists _, _; (split; [reflexivity|]); [reflexivity|]. now rewrite !app_length. }
    destruct E' as (p' & ps' & E' & L'). rewrite E' in *. eexists. split; [eapply ar_inline; [rewrite L'; exact Hh|exact Hr']|].
    apply line_one. intros _. apply (change_left R (h ++ [cSPACE])) in C. rewrite <- !app_assoc in C. exact C.
  - (* table *) intros key d l fields rows h ts Ht Hh Hr m H. destruct (table_one R l m fields rows H Ht) as (A & c & c' & B & -> & Ht' & J).
    apply Forall2_app_inv_l in Hr as (ta & tb & Fa & Fb & ->). inversion Fb as [|? t ? tb' Fc Fb']; subst.
    exists ((d, h) :: map (fun t => (S d, t)) (ta ++ encode_and_join_primitives c' dl :: tb')). split.
    + eapply ar_table; [exact Ht'|rewrite (item_length _ _ _ H); exact Hh|]. apply Forall2_app; [exact Fa|]. constructor; [now apply row_spec|exact Fb'].
    + exists ((d, h) :: map (fun t => (S d, t)) ta), (S d), t, (encode_and_join_primitives c' dl), (map (fun t => (S d, t)) tb').
      rewrite !map_app. split; [reflexivity|]. split; [reflexivity|]. intros D. destruct (J D) as (A' & p & p' & B' & -> & -> & Hp).
      destruct (row_change R A' p p' B' t Hp Fc) as (r' & Hr' & C). apply row_spec in Hr' as ->. exact C.
  - (* list *) intros t key d l h ls Np Nt Hh _ IH m H. destruct (IH _ H) as (ls' & V & L). exists ((d, h) :: ls'). split.
    + apply ar_list; [| |rewrite (item_length _ _ _ H); exact Hh|exact V].
      * intros ps ->. destruct H as (a & v & w & b & -> & E & H). symmetry in E. assert (H' : one_item (flip R) (map JPrim ps) (a ++ v :: b)).
        { exists a, w, v, b. rewrite E. split; [reflexivity|]. split; [reflexivity|]. now apply one_flip. }
        destruct (prims_one _ _ _ H') as (a' & p & p' & b' & _ & E' & _). eapply Np. exact E'.
      * intros Et fields rows Ht. assert (H' : one_item (flip R) m l).
        { destruct H as (a & v & w & b & -> & -> & H). exists a, w, v, b. repeat split. now apply one_flip. }
        destruct (table_one (flip R) m l fields rows H' Ht) as (A & c & c' & B & _ & Ht' & _). eapply Nt; eauto.
    + now apply (line_left [_]).
  - intros d m H. now apply one_item_nil in H.
  - intros d v l a b M IH1 Ms IH2 m H. apply one_item_cons in H as [(w & -> & H)|(m' & -> & H)].
    + destruct (IH1 _ H) as (a' & M' & L). exists (a' ++ b). split; [now constructor|]. apply line_right. eapply when_weaken; [|exact L].
      intros D. now inversion D.
    + destruct (IH2 _ H) as (b' & M' & L). exists (a ++ b'). split; [now constructor|]. apply line_left. eapply when_weaken; [|exact L].
      intros D. now inversion D.
  - intros d p t T w H. inversion H; subst. eexists. split; [apply it_prim, token_spec; reflexivity|].
    apply line_one. intros _. apply token_spec in T as ->. apply (change_left R [cMINUS; cSPACE]). now apply change_token.
  - intros d l t ls _ IH w H. apply one_arr in H as (m & -> & H). destruct (IH _ H) as (ls' & V & L).
    destruct (when_head _ _ _ _ _ L d [cMINUS; cSPACE]) as (t' & ls1 & -> & L'). eexists. split; [apply it_arr; exact V|].
    eapply when_weaken; [apply DA|exact L'].
  - intros d w H. apply one_obj in H as (m & -> & H). now apply one_member_nil in H.
  - intros d k v l t a b V IH1 Ms IH2 w H. apply one_obj in H as (m & -> & H). apply one_member_cons in H as [(x & -> & H)|(m' & -> & H)]; cbn [fst snd] in *.
    + destruct (IH1 _ H) as (ls' & V' & L). destruct (when_head _ _ _ _ _ L d [cMINUS; cSPACE]) as (t' & ls1 & -> & L').
      eexists. split; [eapply it_obj; eauto|]. apply (line_right b) in L'. eapply when_weaken; [|exact L']. intros D. apply DO in D. now inversion D.
    + destruct (IH2 _ H) as (b' & M' & L). eexists. split; [eapply it_obj; [exact V|rewrite (member_keys _ _ _ H); exact M']|].
      apply (line_left ((d, cMINUS :: cSPACE :: t) :: a)) in L. eapply when_weaken; [|exact L]. intros D. apply DO in D. now inversion D.
Qed.
End Diff.
