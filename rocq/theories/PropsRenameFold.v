(** C67 for names, with folded keys: one member renamed, one line changed. *)
From Verif Require Import Chars Shared Floats Json JsonInd Lex Spec Normalize JsonEq EncodeApi TextProof SpecText SpecParts FoldShort SizeProof PropsText ExpandProps PartsProof PropsPartsFold SpecRename.

Local Open Scope nat_scope.

(** No name of a member has a dot, at any depth. *)
Inductive no_dots : json -> Prop :=
| nd_prim p : no_dots (JPrim p)
| nd_arr l : Forall no_dots l -> no_dots (JArr l)
| nd_obj l : Forall (fun kv => ~ In cDOT (fst kv) /\ no_dots (snd kv)) l -> no_dots (JObj l).

Lemma renamed_back k k' v w : renamed k k' v w -> renamed k' k w v.
Proof. induction 1; constructor; assumption. Qed.
Lemma singleton_renamed k k' v w : renamed k k' v w -> (forall n x, v <> JObj [(n, x)]) -> forall n x, w <> JObj [(n, x)].
Proof.
  destruct 1 as [a x b|a n v w b _|a v w b _ _ _]; intros H m y E; [| |discriminate]; injection E as E;
    (destruct a as [|p a]; [|destruct a; discriminate]); cbn [app] in *; injection E as _ _ E; subst b; eapply H; reflexivity.
Qed.

Lemma join_dot_app (a : list str) (k : str) b : exists x y, forall k', join cDOT (a ++ k' :: b) = x ++ k' ++ y.
Proof.
  assert (H : exists y, forall k' : str, join cDOT (k' :: b) = k' ++ y).
  { destruct b as [|n b]; [exists []; intros k'; now rewrite app_nil_r|]. exists (cDOT :: join cDOT (n :: b)). reflexivity. }
  destruct H as (y & H). exists (match a with [] => [] | _ => join cDOT a ++ [cDOT] end), y. intros k'.
  induction a as [|n a IH]; [apply H|]. destruct a as [|m a].
  - cbn [app] in *. change (join cDOT (n :: k' :: b)) with (n ++ cDOT :: join cDOT (k' :: b)). rewrite H. cbn [join]. now rewrite <- app_assoc.
  - change (join cDOT ((n :: m :: a) ++ k' :: b)) with (n ++ cDOT :: join cDOT ((m :: a) ++ k' :: b)). rewrite IH.
    change (join cDOT (n :: m :: a)) with (n ++ cDOT :: join cDOT (m :: a)). rewrite <- !app_assoc. cbn [app]. reflexivity.
Qed.

Section Fold.
Variable dl : char.
Variable fold : bool.
Variable dp : N.
Notation document := (document f64_to_string dl fold dp).
Notation folds := (folds fold).
Notation member := (member f64_to_string dl fold dp).
Notation value_of := (value_of f64_to_string dl fold dp).
Notation members := (members f64_to_string dl fold dp).
Notation array := (array f64_to_string dl fold dp).
Notation items := (items f64_to_string dl fold dp).
Notation item := (item f64_to_string dl fold dp).

Lemma chain_renamed k k' v ks z : chain v ks z -> forall w, renamed k k' v w ->
  (exists a b, ks = a ++ k :: b /\ chain w (a ++ k' :: b) z) \/ (exists z', chain w ks z' /\ renamed k k' z z').
Proof.
  induction 1 as [v|n v ks z C IH]; intros w R; [right; exists w; split; [constructor|exact R]|].
  inversion R as [a x b E|a m y y' b R' E|]; subst; (destruct a as [|p a]; [|destruct a; discriminate]); cbn [app] in *; injection E as -> -> ->.
  - left. exists [], ks. split; [reflexivity|]. now constructor.
  - destruct (IH _ R') as [(a & b & -> & C')|(z' & C' & Rz)].
    + left. exists (n :: a), b. split; [reflexivity|]. now constructor.
    + right. exists z'. split; [now constructor|exact Rz].
Qed.

Section Names.
Variables k k' : str.
Hypothesis Ik : identifier k.
Hypothesis Ik' : identifier k'.
Definition diff (ls ls' : list dline) : Prop :=
  exists b d x y a, ls = b ++ (d, x ++ k ++ y) :: a /\ ls' = b ++ (d, x ++ k' ++ y) :: a.
Lemma diff_around u v ls ls' : diff ls ls' -> diff (u ++ ls ++ v) (u ++ ls' ++ v).
Proof. intros (b & d & x & y & a & -> & ->). exists (u ++ b), d, x, y, (a ++ v). now rewrite <- !app_assoc. Qed.
Lemma diff_cons u ls ls' : diff ls ls' -> diff (u :: ls) (u :: ls').
Proof. intros (b & d & x & y & a & -> & ->). now exists (u :: b), d, x, y, a. Qed.
Lemma diff_app_r v ls ls' : diff ls ls' -> diff (ls ++ v) (ls' ++ v).
Proof. intros H. exact (diff_around [] v ls ls' H). Qed.
Lemma diff_app_l u ls ls' : diff ls ls' -> diff (u ++ ls) (u ++ ls').
Proof. intros H. apply (diff_around u []) in H. now rewrite !app_nil_r in H. Qed.
(** The line of the hyphen. *)
Lemma diff_first d d' u t ls ls' : diff ((d, t) :: ls) ls' ->
  exists t' r, ls' = (d, t') :: r /\ diff ((d', u ++ t) :: ls) ((d', u ++ t') :: r).
Proof.
  intros (b & e & x & y & a & E & ->). destruct b as [|l b]; cbn [app] in *.
  - injection E as -> -> ->. exists (x ++ k' ++ y), a. split; [reflexivity|]. exists [], d', (u ++ x), y, a. now rewrite <- !app_assoc.
  - injection E as <- ->. exists t, (b ++ (e, x ++ k' ++ y) :: a). split; [reflexivity|]. now exists ((d', u ++ t) :: b), e, x, y, a.
Qed.

Lemma bare_text n t : bare_key n -> key_text n t -> t = n.
Proof. intros B [[_ E]|[N _]]; [exact E|contradiction]. Qed.
Lemma text_bare n : bare_key n -> key_text n n.
Proof. now left. Qed.

Lemma deeper_0 ls : deeper 0 ls = ls.
Proof. unfold deeper. rewrite <- (map_id ls) at 2. apply map_ext. now intros []. Qed.
(** Another key before the same value. *)
Lemma rekey c c' d n n' v ls kt kt' : value_of c d n v ls -> alike c c' -> bare_key n -> bare_key n' ->
  n = kt ++ k ++ kt' -> n' = kt ++ k' ++ kt' -> exists ls', value_of c' d n' v ls' /\ diff ls ls'.
Proof.
  intros V A B B' En En'. destruct (proj1 (proj2 (shifted_fold dl fold dp 0)) _ _ _ _ _ V (proj1 A)) as (t0 & t & r & K & -> & H).
  apply (bare_text _ _ B) in K. subst t0. eexists. split; [apply (H c' n' n' A (text_bare _ B'))|]. rewrite deeper_0. cbn [Nat.add].
  exists [], d, kt, (kt' ++ t), r. rewrite En, En', <- !app_assoc. auto.
Qed.

Definition plain (sibs : list str) : Prop := Forall (fun n : str => ~ In cDOT n) sibs.
Lemma plain_not sibs n ks : plain sibs -> ks <> [] -> ~ In (join cDOT (n :: ks)) sibs.
Proof. intros P Hne I. unfold plain in P. rewrite Forall_forall in P. apply P in I. now apply I, joined_dot. Qed.

Definition Vst (v w : json) : Prop := forall c d n ls, value_of c d n v ls -> pl_literals c = [] -> exists ls', value_of c d n w ls' /\ diff ls ls'.
Definition Ist (v w : json) : Prop := forall d ls, item d v ls -> exists ls', item d w ls' /\ diff ls ls'.
Definition Cst (v w : json) : Prop := forall ks z, chain v ks z ->
  (exists a b, ks = a ++ k :: b /\ chain w (a ++ k' :: b) z) \/
  (exists z', chain w ks z' /\ Vst z z' /\ ((forall n x, z <> JObj [(n, x)]) -> forall n x, z' <> JObj [(n, x)])).

Lemma swap_ids a (n n' : str) b : identifier n' -> Forall identifier (a ++ n :: b) -> Forall identifier (a ++ n' :: b).
Proof. intros H F. apply Forall_app in F as [Fa Fb]. inversion Fb; subst. apply Forall_app. auto. Qed.

(** What is folded is folded under the other name. *)
Lemma folds_here c sibs sibs' x ks z n n' : identifier n' -> pl_literals c = [] -> plain sibs' -> folds c sibs n x ks z -> folds c sibs' n' x ks z.
Proof.
  intros I L P (F1 & F2 & F3 & F4 & F5 & F6 & F7 & F8). repeat (split; [assumption|]). split; [inversion F6; subst; now constructor|].
  split; [now apply plain_not|]. rewrite L. intros [].
Qed.
Lemma member_here c sibs sibs' d x ls : pl_literals c = [] -> plain sibs -> plain sibs' -> member c sibs d (k, x) ls ->
  exists ls', member c sibs' d (k', x) ls' /\ diff ls ls'.
Proof.
  intros L P P' M. inversion M as [? ? ? ? ? ks z ? F V|? ? ? ? ? ? N V]; subst.
  - pose proof F as (_ & _ & _ & _ & _ & Fi & _). destruct (join_dot_app [] k ks) as (t1 & t2 & J).
    assert (Fi' : Forall identifier (k' :: ks)) by (inversion Fi; subst; now constructor).
    destruct (rekey _ (Place (pl_literals c) (pl_path c ++ [join cDOT (k' :: ks)]) (pl_budget c - N.of_nat (S (length ks)))) d _ (join cDOT (k' :: ks)) z ls t1 t2
      V (conj L (conj L eq_refl)) (joined_bare _ _ Fi) (joined_bare _ _ Fi') (J k) (J k')) as (ls' & V' & D).
    exists ls'. split; [|exact D]. apply me_folded with ks z; [eapply folds_here; eauto|exact V'].
  - destruct (rekey _ (Place (pl_literals c) (pl_path c ++ [k']) (pl_budget c)) d _ k' x ls [] []
      V (conj L (conj L eq_refl)) (identifier_bare _ Ik) (identifier_bare _ Ik') (eq_sym (app_nil_r k)) (eq_sym (app_nil_r k'))) as (ls' & V' & D).
    exists ls'. split; [|exact D]. apply me_plain; [|exact V']. intros ks z F. apply (N ks z). eapply folds_here; [exact Ik| | |exact F]; assumption.
Qed.
Lemma member_inner c sibs d n v w ls : pl_literals c = [] -> plain sibs -> renamed k k' v w -> Vst v w -> Cst v w -> member c sibs d (n, v) ls ->
  exists ls', member c sibs d (n, w) ls' /\ diff ls ls'.
Proof.
  intros L P R Hv Hc M. inversion M as [? ? ? ? ? ks z ? F V|? ? ? ? ? ? N V]; subst.
  - destruct F as (F1 & F2 & F3 & F4 & F5 & F6 & F7 & F8). destruct (Hc _ _ F3) as [(a & b & -> & C)|(z' & C & Hz & Sg)].
    + assert (Ne : a ++ k' :: b <> []) by (destruct a; discriminate).
      assert (Len : length (a ++ k' :: b) = length (a ++ k :: b)) by (now rewrite !app_length).
      assert (Fi' : Forall identifier (n :: a ++ k' :: b)) by exact (swap_ids (n :: a) k k' b Ik' F6).
      destruct (join_dot_app (n :: a) k b) as (t1 & t2 & J).
      rewrite <- Len in V.
      destruct (rekey _ (Place (pl_literals c) (pl_path c ++ [join cDOT (n :: a ++ k' :: b)]) (pl_budget c - N.of_nat (S (length (a ++ k' :: b))))) d _ (join cDOT (n :: a ++ k' :: b)) z ls t1 t2
        V (conj L (conj L eq_refl)) (joined_bare _ _ F6) (joined_bare _ _ Fi') (J k) (J k')) as (ls' & V' & D).
      exists ls'. split; [|exact D]. apply me_folded with (a ++ k' :: b) z; [|exact V']. rewrite <- Len in F4, F5.
        repeat (split; [assumption|]). split; [now apply plain_not|]. rewrite L. intros [].
    + destruct (Hz _ _ _ _ V L) as (ls' & V' & D). exists ls'. split; [|exact D]. apply me_folded with ks z'; [|exact V'].
      repeat (split; [assumption|]). split; [destruct F5 as [F5|F5]; [now left|right; auto]|]. auto.
  - destruct (Hv _ _ _ _ V L) as (ls' & V' & D).
    exists ls'. split; [|exact D]. apply me_plain; [|exact V']. intros ks z (F1 & F2 & F3 & F4 & F5 & F6 & F7 & F8).
    destruct (chain_renamed _ _ _ _ _ F3 _ (renamed_back _ _ _ _ R)) as [(a & b & -> & C)|(z' & C & Rz)].
    + apply (N (a ++ k :: b) z). assert (Len : length (a ++ k :: b) = length (a ++ k' :: b)) by (now rewrite !app_length).
      rewrite <- Len in F4, F5. split; [assumption|]. split; [destruct a; discriminate|]. repeat (split; [assumption|]).
      split; [exact (swap_ids (n :: a) k' k b Ik F6)|]. split; [apply plain_not; [exact P|destruct a; discriminate]|]. rewrite L. intros [].
    + apply (N ks z'). repeat (split; [assumption|]). split; [destruct F5 as [F5|F5]; [now left|right]|]; auto.
      exact (singleton_renamed _ _ _ _ Rz F5).
Qed.

Lemma members_split c sibs d a b ls : members c sibs d (a ++ b) ls -> exists la lb, ls = la ++ lb /\ members c sibs d a la /\ members c sibs d b lb.
Proof.
  revert ls. induction a as [|m a IH]; intros ls M; [exists [], ls; repeat split; [constructor|exact M]|].
  inversion M as [|? ? ? ? ? x y Hm Hr]; subst. destruct (IH _ Hr) as (la & lb & -> & Ma & Mb). exists (x ++ la), lb. rewrite app_assoc. repeat split; [|exact Mb].
  now constructor.
Qed.
Lemma members_swap c sibs sibs' d a m m' b ls : plain sibs -> plain sibs' ->
  (forall ls, member c sibs d m ls -> exists ls', member c sibs' d m' ls' /\ diff ls ls') ->
  members c sibs d (a ++ m :: b) ls -> exists ls', members c sibs' d (a ++ m' :: b) ls' /\ diff ls ls'.
Proof.
  intros P P' H M. apply members_split in M as (la & lb & -> & Ma & Mb). inversion Mb as [|? ? ? ? ? x y Hm Hr]; subst.
  destruct (H _ Hm) as (x' & Hm' & D). exists (la ++ x' ++ y). split; [|now apply diff_around].
  apply fold_members_app; [now apply siblings_matter_not with sibs|]. constructor; [exact Hm'|now apply siblings_matter_not with sibs].
Qed.
Lemma items_split d a b ls : items d (a ++ b) ls -> exists la lb, ls = la ++ lb /\ items d a la /\ items d b lb.
Proof.
  revert ls. induction a as [|m a IH]; intros ls M; [exists [], ls; repeat split; [constructor|exact M]|].
  inversion M as [|? ? ? x y Hm Hr]; subst. destruct (IH _ Hr) as (la & lb & -> & Ma & Mb). exists (x ++ la), lb. rewrite app_assoc. repeat split; [|exact Mb].
  now constructor.
Qed.
Lemma items_app d a b la lb : items d a la -> items d b lb -> items d (a ++ b) (la ++ lb).
Proof.
  intros A B. revert la A. induction a as [|x l IH]; intros la A; inversion A as [|? ? ? y z M M2]; subst; [exact B|].
  rewrite <- app_assoc. cbn [app]. constructor; [exact M|]. now apply IH.
Qed.

Lemma not_prims (a : list json) z b : (forall p, z <> JPrim p) -> forall ps, a ++ z :: b <> map JPrim ps.
Proof. intros H ps E. assert (I : In z (map JPrim ps)) by (rewrite <- E; apply in_elt). apply in_map_iff in I as (p & <- & _). now apply (H p). Qed.
Lemma renamed_not_prim v w : renamed k k' v w -> (forall p, v <> JPrim p) /\ forall p, w <> JPrim p.
Proof. destruct 1; split; discriminate. Qed.
Lemma array_swap t key d a v w b ls : ~ tabled (a ++ v :: b) -> ~ tabled (a ++ w :: b) -> renamed k k' v w -> Ist v w ->
  array t key d (a ++ v :: b) ls -> exists h r r', ls = (d, h) :: r /\ array t key d (a ++ w :: b) ((d, h) :: r') /\ diff r r'.
Proof.
  intros T T' R Hi A. destruct (renamed_not_prim _ _ R) as [Nv Nw].
  inversion A as [? ? ? ? ? E|? ? ? p ps ? ? ? ? E|? ? ? f rows ? ? Ht|? ? ? ? h r N1 N2 Hh Hr]; subst.
  - destruct a; discriminate.
  - exfalso. apply (not_prims a v b Nv (p :: ps)). symmetry. assumption.
  - exfalso. apply T. now exists f, rows.
  - apply items_split in Hr as (la & lb & -> & Ia & Ib). inversion Ib as [|? ? ? x y Hm Hr]; subst. destruct (Hi _ _ Hm) as (x' & Hm' & D).
    exists h, (la ++ x ++ y), (la ++ x' ++ y). split; [reflexivity|]. split; [|now apply diff_around].
    apply ar_list; [now apply not_prims| |rewrite app_length in *; exact Hh|apply items_app; [exact Ia|now constructor]].
    intros _ f rows H. apply T'. now exists f, rows.
Qed.

Lemma keys_plain l : Forall (fun kv : str * json => ~ In cDOT (fst kv) /\ no_dots (snd kv)) l -> plain (map fst l).
Proof. intros H. apply Forall_map. eapply Forall_impl; [|exact H]. now intros ? [? _]. Qed.

Lemma renamed_all v w : renamed k k' v w -> no_dots v -> Vst v w /\ Ist v w /\ Cst v w.
Proof.
  induction 1 as [a x b|a n v w b R IH|a v w b T T' R IH]; intros ND; inversion ND as [|? F|? F]; subst.
  - pose proof (keys_plain _ F) as P. assert (P' : plain (map fst (a ++ (k', x) :: b))).
    { unfold plain in *. rewrite map_app in *. apply Forall_app in P as [Pa Pb]. inversion Pb; subst. apply Forall_app. split; [exact Pa|].
      constructor; [now apply identifier_no_dot|assumption]. }
    assert (Hv : Vst (JObj (a ++ (k, x) :: b)) (JObj (a ++ (k', x) :: b))).
    { intros c d n ls V L. inversion V as [|? ? ? ? kt r K M|]; subst.
      destruct (members_swap c _ _ (S d) a (k, x) (k', x) b _ P P' (fun ls H => member_here _ _ _ _ _ _ L P P' H) M) as (r' & M' & D).
      exists ((d, kt ++ [cCOLON]) :: r'). split; [now constructor|now apply diff_cons]. }
    split; [exact Hv|]. split.
    + intros d ls I. destruct a as [|m a]; cbn [app] in *.
      * inversion I as [| | |? ? ? ? t r lb V M]; subst.
        destruct (rekey (fresh dp) (fresh dp) _ _ k' _ _ [] [] V (conj eq_refl (conj eq_refl eq_refl)) (identifier_bare _ Ik) (identifier_bare _ Ik')
          (eq_sym (app_nil_r k)) (eq_sym (app_nil_r k'))) as (r' & V' & D).
        destruct (diff_first _ d [cMINUS; cSPACE] _ _ _ D) as (t' & r2 & -> & D'). eexists. split; [apply it_obj; [exact V'|exact M]|].
        exact (diff_app_r lb _ _ D').
      * inversion I as [| | |? n0 v0 ? t r lb V M]; subst. inversion P as [|? ? _ P1]; subst. inversion P' as [|? ? _ P1']; subst.
        destruct (members_swap (fresh dp) _ _ (S d) a (k, x) (k', x) b _ P1 P1' (fun ls H => member_here (fresh dp) _ _ _ _ _ eq_refl P1 P1' H) M) as (r' & M' & D).
        eexists. split; [apply it_obj; [exact V|exact M']|]. apply diff_cons. now apply diff_app_l.
    + intros ks z C. inversion C as [|? ? ? ? C' E]; subst.
      * right. exists (JObj (a ++ (k', x) :: b)). split; [constructor|]. split; [exact Hv|]. apply (singleton_renamed k k'). constructor.
      * destruct a as [|p a]; [|destruct a; discriminate]. injection E as -> -> <-. left. eexists [], _. split; [reflexivity|]. now constructor.
  - pose proof (keys_plain _ F) as P. assert (P' : plain (map fst (a ++ (n, w) :: b))) by (rewrite map_app in *; exact P).
    assert (NDv : no_dots v) by (apply Forall_app in F as [_ F]; now inversion F as [|? ? [_ ?] _]).
    destruct (IH NDv) as (Vv & Iv & Cv).
    assert (Hv : Vst (JObj (a ++ (n, v) :: b)) (JObj (a ++ (n, w) :: b))).
    { intros c d n0 ls V L. inversion V as [|? ? ? ? kt r K M|]; subst. assert (Es : map fst (a ++ (n, w) :: b) = map fst (a ++ (n, v) :: b)) by (now rewrite !map_app).
      destruct (members_swap c _ _ (S d) a (n, v) (n, w) b _ P P (fun ls H => member_inner _ _ _ _ _ _ _ L P R Vv Cv H) M) as (r' & M' & D).
      exists ((d, kt ++ [cCOLON]) :: r'). split; [constructor; [exact K|now rewrite Es]|now apply diff_cons]. }
    split; [exact Hv|]. split.
    + intros d ls I. destruct a as [|m a]; cbn [app] in *.
      * inversion I as [| | |? ? ? ? t r lb V M]; subst. destruct (Vv _ _ _ _ V eq_refl) as (r' & V' & D).
        destruct (diff_first _ d [cMINUS; cSPACE] _ _ _ D) as (t' & r2 & -> & D'). eexists. split; [apply it_obj; [exact V'|exact M]|].
        exact (diff_app_r lb _ _ D').
      * inversion I as [| | |? n0 v0 ? t r lb V M]; subst. inversion P as [|? ? _ P1]; subst.
        assert (Es : map fst (a ++ (n, w) :: b) = map fst (a ++ (n, v) :: b)) by (now rewrite !map_app).
        destruct (members_swap (fresh dp) _ _ (S d) a (n, v) (n, w) b _ P1 P1 (fun ls H => member_inner (fresh dp) _ _ _ _ _ _ eq_refl P1 R Vv Cv H) M) as (r' & M' & D).
        eexists. split; [apply it_obj; [exact V|rewrite Es; exact M']|]. apply diff_cons. now apply diff_app_l.
    + intros ks z C. inversion C as [|? ? ? ? C' E]; subst.
      * right. exists (JObj (a ++ (n, w) :: b)). split; [constructor|]. split; [exact Hv|]. apply (singleton_renamed k k'). now constructor.
      * destruct a as [|p a]; [|destruct a; discriminate]. injection E as -> -> <-. cbn [app].
        destruct (Cv _ _ C') as [(a' & b' & -> & C2)|(z' & C2 & Hz)].
        -- left. eexists (_ :: a'), b'. split; [reflexivity|]. now constructor.
        -- right. exists z'. split; [now constructor|exact Hz].
  - assert (NDv : no_dots v) by (apply Forall_app in F as [_ F]; now inversion F).
    destruct (IH NDv) as (_ & Iv & _).
    assert (Hv : Vst (JArr (a ++ v :: b)) (JArr (a ++ w :: b))).
    { intros c d n ls V L. inversion V as [| |? ? ? ? ? A]; subst. destruct (array_swap _ _ _ _ _ _ _ _ T T' R Iv A) as (h & r & r' & -> & A' & D).
      eexists. split; [apply vo_arr; exact A'|now apply diff_cons]. }
    split; [exact Hv|]. split.
    + intros d ls I. inversion I as [|? ? t r A| |]; subst. destruct (array_swap _ _ _ _ _ _ _ _ T T' R Iv A) as (h & r0 & r' & E & A' & D).
      injection E as -> ->. eexists. split; [apply it_arr; exact A'|now apply diff_cons].
    + intros ks z C. inversion C; subst. right. exists (JArr (a ++ w :: b)). split; [constructor|]. split; [exact Hv|]. intros _ ? ?. discriminate.
Qed.

Lemma renamed_document v w doc : renamed k k' v w -> no_dots v -> document v doc -> exists doc', document w doc' /\ diff doc doc'.
Proof.
  intros R ND D. assert (Dl : forall l, Forall (fun kv : str * json => ~ In cDOT (fst kv) /\ no_dots (snd kv)) l -> dotless l).
  { intros l F. eapply Forall_impl; [|exact F]. now intros ? [? _]. }
  destruct R as [a x b|a n v w b R|a v w b T T' R]; inversion ND as [|? F|? F]; subst.
  - pose proof (keys_plain _ F) as P. assert (U' : dotless (a ++ (k', x) :: b)).
    { pose proof (Dl _ F) as U. unfold dotless in *. apply Forall_app in U as [Ua Ub]. inversion Ub; subst. apply Forall_app. split; [exact Ua|].
      constructor; [now apply identifier_no_dot|assumption]. }
    apply dotless_doc in D; [|now apply Dl]. pose proof (dotless_keys _ U') as P'.
    destruct (members_swap (fresh dp) _ _ 0 a (k, x) (k', x) b _ P P' (fun ls H => member_here (fresh dp) _ _ _ _ _ eq_refl P P' H) D) as (r' & M' & D').
    exists r'. split; [now apply dotless_doc|exact D'].
  - pose proof (keys_plain _ F) as P. assert (NDv : no_dots v) by (apply Forall_app in F as [_ F]; now inversion F as [|? ? [_ ?] _]).
    destruct (renamed_all _ _ R NDv) as (Vv & Iv & Cv).
    assert (Es : map fst (a ++ (n, w) :: b) = map fst (a ++ (n, v) :: b)) by (now rewrite !map_app).
    assert (U' : dotless (a ++ (n, w) :: b)).
    { pose proof (Dl _ F) as U. unfold dotless in *. apply Forall_app in U as [Ua Ub]. inversion Ub; subst. apply Forall_app. split; [exact Ua|]. now constructor. }
    apply dotless_doc in D; [|now apply Dl].
    destruct (members_swap (fresh dp) _ _ 0 a (n, v) (n, w) b _ P P (fun ls H => member_inner (fresh dp) _ _ _ _ _ _ eq_refl P R Vv Cv H) D) as (r' & M' & D').
    exists r'. split; [apply dotless_doc; [exact U'|now rewrite Es]|exact D'].
  - assert (NDv : no_dots v) by (apply Forall_app in F as [_ F]; now inversion F). destruct (renamed_all _ _ R NDv) as (_ & Iv & _).
    inversion D as [|? ? A|]; subst. destruct (array_swap _ _ _ _ _ _ _ _ T T' R Iv A) as (h & r & r' & -> & A' & D').
    eexists. split; [apply do_arr; exact A'|now apply diff_cons].
Qed.
End Names.
End Fold.

Section Options.
Variable indent : option nat.
Variable delimiter : option char.
Variable mode : option key_folding_mode.
Variable depth : option N.
Notation lines v := (encode_lines 0 v (Some (EncOpts indent delimiter mode depth None))).
Let norm := fun kv : str * json => (fst kv, normalize_json_value (snd kv)).

Lemma renamed_norm k k' v w : renamed k k' v w -> renamed k k' (normalize_json_value v) (normalize_json_value w).
Proof.
  assert (No : forall l, normalize_json_value (JObj l) = JObj (map norm l)) by reflexivity.
  assert (Na : forall l, normalize_json_value (JArr l) = JArr (map normalize_json_value l)) by reflexivity.
  induction 1 as [a x b|a n v w b R IH|a v w b T T' R IH]; rewrite ?No, ?Na, !map_app; cbn [map].
  - unfold norm at 2 5. cbn [fst snd]. constructor.
  - unfold norm at 2 5. cbn [fst snd]. now constructor.
  - rewrite <- tabled_norm, map_app in T, T'. cbn [map] in T, T'. now constructor.
Qed.
Lemma no_dots_norm v : no_dots v -> no_dots (normalize_json_value v).
Proof.
  assert (No : forall l, normalize_json_value (JObj l) = JObj (map norm l)) by reflexivity.
  assert (Na : forall l, normalize_json_value (JArr l) = JArr (map normalize_json_value l)) by reflexivity.
  induction v as [p|l IH|l IH] using json_ind'; intros H; inversion H as [|? F|? F]; subst.
  - destruct p; try constructor.
  - rewrite Na. constructor. apply Forall_map. rewrite Forall_forall in *. auto.
  - rewrite No. constructor. apply Forall_map. rewrite Forall_forall in *. intros kv I. destruct (F _ I) as [Hd Hn]. split; [exact Hd|]. cbn [norm snd]. auto.
Qed.

(** Whatever the folding mode: rename one member of a value none of whose names has a dot, from one
    identifier to another and anywhere but in a table.  Keys are folded as before, and one line
    changes, where the new name stands in place of the old one, be it within a folded key. *)
Theorem C67_renamed_member_folded :
  forall (k k' : str) (v w : json) (ls : list str),
    identifier k -> identifier k' -> no_dots v -> renamed k k' v w -> lines v = Ok ls ->
    exists before x y after,
      ls = before ++ (x ++ k ++ y) :: after /\ lines w = Ok (before ++ (x ++ k' ++ y) :: after).
Proof.
  intros k k' v w ls I I' ND R H. apply (C46_encoded_text _ _ _ _ _ _ _ (normalize_spec _)) in H as (doc & D & ->).
  destruct (renamed_document _ _ _ k k' I I' _ _ _ (renamed_norm _ _ _ _ R) (no_dots_norm _ ND) D) as (doc' & D' & b & d & x & y & a & -> & ->).
  assert (E : lines w = Ok (map (shown (unwrap_or indent 2)) (b ++ (d, x ++ k' ++ y) :: a))).
  { apply (C46_encoded_text _ _ _ _ _ _ _ (normalize_spec _)). eexists. split; [exact D'|reflexivity]. }
  rewrite E, !map_app. cbn [map]. set (p := repeat cSPACE (unwrap_or indent 2 * d)).
  exists (map (shown (unwrap_or indent 2)) b), (p ++ x), y, (map (shown (unwrap_or indent 2)) a).
  rewrite <- !app_assoc. split; reflexivity.
Qed.
End Options.
Print Assumptions C67_renamed_member_folded.

(** A name within a folded key, and one below it; a new name that is no identifier ends the folding. *)
Definition nested (a b c : string) : json :=
  JObj [(lit "x", JPrim PNull); (lit a, JObj [(lit b, JObj [(lit c, JPrim PNull); (lit "y", JArr [])])])].
Example C67_renamed_folded_case :
  let lines := fun v => encode_lines 0 v (Some (EncOpts None None (Some KFSafe) None None)) in
  renamed (lit "b") (lit "beta") (nested "a" "b" "c") (nested "a" "beta" "c") /\
  renamed (lit "c") (lit "gamma") (nested "a" "b" "c") (nested "a" "b" "gamma") /\
  lines (nested "a" "b" "c") = Ok [lit "x: null"; lit "a.b:"; lit "  c: null"; lit "  y[0]:"] /\
  lines (nested "a" "beta" "c") = Ok [lit "x: null"; lit "a.beta:"; lit "  c: null"; lit "  y[0]:"] /\
  lines (nested "a" "b" "gamma") = Ok [lit "x: null"; lit "a.b:"; lit "  gamma: null"; lit "  y[0]:"] /\
  lines (nested "a" "b-b" "c") = Ok [lit "x: null"; lit "a:"; lit "  ""b-b"":"; lit "    c: null"; lit "    y[0]:"].
Proof.
  cbv zeta. split; [|split; [|repeat split; vm_compute; reflexivity]].
  - apply (rn_member _ _ [_] _ _ _ []). apply (rn_here _ _ [] _ []).
  - apply (rn_member _ _ [_] _ _ _ []). apply (rn_member _ _ [] _ _ _ []). apply (rn_here _ _ [] _ [_]).
Qed.
Example C67_renamed_folded_names : identifier (lit "b") /\ identifier (lit "beta") /\ no_dots (nested "a" "b" "c").
Proof.
  assert (Id : forall s, is_identifier_segment s = true -> identifier s) by (intros s; apply TextProof.identifier_spec).
  split; [apply Id; vm_compute; reflexivity|]. split; [apply Id; vm_compute; reflexivity|].
  assert (N : forall n : str, contains cDOT n = false -> ~ In cDOT n).
  { intros n H I. apply contains_In in I. congruence. }
  unfold nested. repeat (constructor || split || (apply N; vm_compute; reflexivity)).
Qed.
(** A dot in a sibling's name can forbid the folding before or after: then more lines change. *)
Example C67_renamed_folded_dots :
  let lines := fun v => encode_lines 0 v (Some (EncOpts None None (Some KFSafe) None None)) in
  let v := fun n => JObj [(lit "a", JObj [(lit n, JPrim PNull)]); (lit "a.c", JPrim PNull)] in
  lines (v "b"%string) = Ok [lit "a.b: null"; lit "a.c: null"] /\
  lines (v "c"%string) = Ok [lit "a:"; lit "  c: null"; lit "a.c: null"].
Proof. split; vm_compute; reflexivity. Qed.
