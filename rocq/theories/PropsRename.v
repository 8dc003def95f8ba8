(** C67 for names: one member renamed, one line changed. *)
From Verif Require Import Chars Floats Json Spec EncPrim Normalize EncodeApi SpecText TextProof SpecParts PartsProof PropsParts EncTotal SpecRename.

Local Open Scope nat_scope.

Section Options.
Variable indent : option nat.
Variable delimiter : option char.
Variable mode : option key_folding_mode.
Variable depth : option N.
Hypothesis Hm : mode <> Some KFSafe.
Notation spaces := (unwrap_or indent 2).
Notation dl := (unwrap_or delimiter cCOMMA).
Notation lines v := (encode_lines 0 v (Some (EncOpts indent delimiter mode depth None))).
Notation blk := (block (fun v ls => lines v = Ok ls) spaces dl).

Lemma lines_total v : exists ls, lines v = Ok ls.
Proof. unfold encode_lines. cbn. apply encode_json_value_total. Qed.

(** The lines differ in one line, and this in the name. *)
Definition renamed_line (k k' s s' : str) : Prop :=
  exists x kt kt' y, s = x ++ kt ++ y /\ s' = x ++ kt' ++ y /\ key_text k kt /\ key_text k' kt'.
Definition one_line (R : str -> str -> Prop) (ls ls' : list str) : Prop :=
  exists before s s' after, ls = before ++ s :: after /\ ls' = before ++ s' :: after /\ R s s'.

Lemma renamed_after k k' u s s' : renamed_line k k' s s' -> renamed_line k k' (u ++ s) (u ++ s').
Proof. intros (x & kt & kt' & y & -> & -> & H). exists (u ++ x), kt, kt', y. rewrite <- !app_assoc. auto. Qed.
Lemma renamed_dash k k' s s' : renamed_line k k' s s' -> renamed_line k k' (dash spaces s) (dash spaces s').
Proof.
  intros H. apply (renamed_after _ _ (repeat cSPACE spaces ++ [cMINUS; cSPACE])) in H. unfold dash. now rewrite <- !app_assoc in H.
Qed.
Lemma one_around R a b ls ls' : one_line R ls ls' -> one_line R (a ++ ls ++ b) (a ++ ls' ++ b).
Proof.
  intros (be & s & s' & af & -> & -> & H). exists (a ++ be), s, s', (af ++ b). rewrite <- !app_assoc. auto.
Qed.
Lemma one_map (R : str -> str -> Prop) f ls ls' : (forall s s', R s s' -> R (f s) (f s')) -> one_line R ls ls' -> one_line R (map f ls) (map f ls').
Proof.
  intros Hf (be & s & s' & af & -> & -> & H). rewrite !map_app. cbn [map]. eexists _, _, _, _. split; [reflexivity|]. split; [reflexivity|auto].
Qed.
(** The first line is treated differently from the others. *)
Lemma one_split (R : str -> str -> Prop) f g first rest ls' : (forall s s', R s s' -> R (f s) (f s')) -> (forall s s', R s s' -> R (g s) (g s')) ->
  one_line R (first :: rest) ls' -> exists first' rest', ls' = first' :: rest' /\ one_line R (f first :: map g rest) (f first' :: map g rest').
Proof.
  intros Hf Hg (be & s & s' & af & E & -> & H). destruct be as [|x be]; cbn [app] in *.
  - injection E as -> ->. exists s', af. split; [reflexivity|]. exists [], (f s), (f s'), (map g af). cbn. auto.
  - injection E as -> ->. exists x, (be ++ s' :: af). split; [reflexivity|]. rewrite !map_app. cbn [map].
    exists (f x :: map g be), (g s), (g s'), (map g af). cbn. auto.
Qed.

Lemma lines_member k kt v ls : key_text k kt -> lines v = Ok ls -> exists y rest, lines (JObj [(k, v)]) = Ok ((kt ++ y) :: rest) /\
  forall k' kt', key_text k' kt' -> lines (JObj [(k', v)]) = Ok ((kt' ++ y) :: rest).
Proof.
  intros K H. destruct v as [p|l|l].
  - destruct (parts_prim indent delimiter mode depth Hm k kt p ls K H) as (t & -> & _). exists (cCOLON :: cSPACE :: t), [].
    split; [|intros k' kt' K'];
      [exact (C70_member indent delimiter mode depth _ _ (JPrim p) [t] Hm K H)|exact (C70_member indent delimiter mode depth _ _ (JPrim p) [t] Hm K' H)].
  - destruct (parts_array indent delimiter mode depth Hm k kt l ls K H) as (f & r & -> & _). exists f, r.
    split; [|intros k' kt' K'];
      [exact (C70_member indent delimiter mode depth _ _ (JArr l) (f :: r) Hm K H)|exact (C70_member indent delimiter mode depth _ _ (JArr l) (f :: r) Hm K' H)].
  - exists [cCOLON], (pushed spaces ls).
    split; [|intros k' kt' K'];
      [exact (C70_member indent delimiter mode depth _ _ (JObj l) ls Hm K H)|exact (C70_member indent delimiter mode depth _ _ (JObj l) ls Hm K' H)].
Qed.
Lemma lines_around a n v b : exists la lv lb, lines (JObj a) = Ok la /\ lines (JObj [(n, v)]) = Ok lv /\ lines (JObj b) = Ok lb /\
  lines (JObj (a ++ (n, v) :: b)) = Ok (la ++ lv ++ lb).
Proof.
  destruct (lines_total (JObj a)) as (la & Ha). destruct (lines_total (JObj [(n, v)])) as (lv & Hv). destruct (lines_total (JObj b)) as (lb & Hb).
  exists la, lv, lb. split; [exact Ha|]. split; [exact Hv|]. split; [exact Hb|]. change ((n, v) :: b) with ([(n, v)] ++ b).
  apply C70_members; auto. apply C70_members; auto.
Qed.

Lemma renamed_shape k k' v w : renamed k k' v w ->
  (exists m m' l l', v = JObj (m :: l) /\ w = JObj (m' :: l')) \/ (exists l l', v = JArr l /\ w = JArr l').
Proof.
  destruct 1 as [a x b|a n v w b _|a v w b _ _ _]; [left|left|right; eauto]; destruct a as [|m a]; cbn [app]; eauto 8.
Qed.
Lemma renamed_lines k k' v w : renamed k k' v w -> forall ls ls', lines v = Ok ls -> lines w = Ok ls' -> one_line (renamed_line k k') ls ls'.
Proof.
  induction 1 as [a x b|a n v w b Rn IH|a v w b Nt Nt' Rn IH]; intros ls ls' H H'.
  - destruct (lines_around a k x b) as (la & lv & lb & Ha & Hv & Hb & E). rewrite H in E. injection E as ->.
    destruct (lines_around a k' x b) as (la' & lv' & lb' & Ha' & Hv' & Hb' & E). rewrite H' in E. injection E as ->.
    rewrite Ha in Ha'. injection Ha' as <-. rewrite Hb in Hb'. injection Hb' as <-. apply one_around.
    destruct (lines_total x) as (lx & Hx). destruct (lines_member _ _ _ _ (key_text_ok k) Hx) as (y & rest & E & E').
    specialize (E' _ _ (key_text_ok k')). rewrite Hv in E. injection E as ->. rewrite Hv' in E'. injection E' as ->.
    exists [], (encode_key k ++ y), (encode_key k' ++ y), rest. split; [reflexivity|]. split; [reflexivity|].
    exists [], (encode_key k), (encode_key k'), y. repeat split; auto using key_text_ok.
  - destruct (lines_around a n v b) as (la & lv & lb & Ha & Hv & Hb & E). rewrite H in E. injection E as ->.
    destruct (lines_around a n w b) as (la' & lv' & lb' & Ha' & Hv' & Hb' & E). rewrite H' in E. injection E as ->.
    rewrite Ha in Ha'. injection Ha' as <-. rewrite Hb in Hb'. injection Hb' as <-. apply one_around.
    destruct (lines_total v) as (l1 & H1). destruct (lines_total w) as (l2 & H2). specialize (IH _ _ H1 H2).
    pose proof (C70_member indent delimiter mode depth n _ v l1 Hm (key_text_ok n) H1) as E1.
    pose proof (C70_member indent delimiter mode depth n _ w l2 Hm (key_text_ok n) H2) as E2.
    rewrite Hv in E1. apply (f_equal (fun r => match r with Ok z => z | Err _ => [] end)) in E1.
    rewrite Hv' in E2. apply (f_equal (fun r => match r with Ok z => z | Err _ => [] end)) in E2. cbv beta iota in E1, E2. subst lv lv'.
    destruct (renamed_shape _ _ _ _ Rn) as [(m & m' & x & x' & -> & ->)|(x & x' & -> & ->)].
    + change ((encode_key n ++ [cCOLON]) :: pushed spaces l1) with ([encode_key n ++ [cCOLON]] ++ pushed spaces l1).
      change ((encode_key n ++ [cCOLON]) :: pushed spaces l2) with ([encode_key n ++ [cCOLON]] ++ pushed spaces l2).
      rewrite <- (app_nil_r (pushed spaces l1)), <- (app_nil_r (pushed spaces l2)). apply one_around. apply one_map; [|exact IH].
      intros; now apply renamed_after.
    + destruct (parts_array indent delimiter mode depth Hm n _ _ _ (key_text_ok n) H1) as (f & r & -> & _).
      destruct (one_split _ (app (encode_key n)) (fun s => s) _ _ _ (renamed_after k k' (encode_key n)) (fun s s' X => X) IH) as (f' & r' & -> & X).
      now rewrite !map_id in X.
  - assert (Np : forall z, (exists m l, z = JObj (m :: l)) \/ (exists l, z = JArr l) -> forall ps, a ++ z :: b <> map JPrim ps).
    { intros z Hz ps E. assert (I : In z (map JPrim ps)) by (rewrite <- E; apply in_elt). apply in_map_iff in I as (p & <- & _).
      destruct Hz as [(m & l & Hz)|(l & Hz)]; discriminate. }
    pose proof (renamed_shape _ _ _ _ Rn) as Sh.
    assert (Pv : forall ps, a ++ v :: b <> map JPrim ps) by (apply Np; destruct Sh as [(m & m' & x & x' & -> & ->)|(x & x' & -> & ->)]; eauto).
    assert (Pw : forall ps, a ++ w :: b <> map JPrim ps) by (apply Np; destruct Sh as [(m & m' & x & x' & -> & ->)|(x & x' & -> & ->)]; eauto).
    apply C70_items in H as (h & bs & Hh & F & ->); auto. apply C70_items in H' as (h' & bs' & Hh' & F' & ->); auto.
    assert (h' = h) as ->. { rewrite app_length in Hh, Hh'. cbn [length] in Hh, Hh'. apply header_spec in Hh, Hh'. congruence. }
    apply Forall2_app_inv_l in F as (ba & bz & Fa & Fz & ->). inversion Fz as [|? bv ? bb Bv Fb]; subst.
    apply Forall2_app_inv_l in F' as (ba' & bz' & Fa' & Fz' & ->). inversion Fz' as [|? bw ? bb' Bw Fb']; subst.
    assert (U : forall l x y, Forall2 blk l x -> Forall2 blk l y -> x = y).
    { induction l as [|z l IHl]; intros x y Hx Hy; inversion Hx; inversion Hy; subst; [reflexivity|]. f_equal; [|auto].
      eapply (block_unique indent delimiter mode depth z); eauto. }
    rewrite (U _ _ _ Fa' Fa), (U _ _ _ Fb' Fb). rewrite !concat_app. cbn [concat].
    change (h :: ?x) with ([h] ++ x). rewrite !(app_assoc [h]). apply one_around.
    destruct (lines_total v) as (l1 & H1). destruct (lines_total w) as (l2 & H2). specialize (IH _ _ H1 H2).
    destruct Sh as [(m & m' & x & x' & -> & ->)|(x & x' & -> & ->)].
    + inversion Bv as [| |? ? f r Tv|?|?]; subst. inversion Bw as [| |? ? f' r' Tw|?|?]; subst.
      rewrite Tv in H1. injection H1 as <-. rewrite Tw in H2. injection H2 as <-.
      destruct (one_split _ (dash spaces) (fun s => repeat cSPACE (spaces * 2) ++ s) _ _ _
        (renamed_dash k k') (renamed_after k k' (repeat cSPACE (spaces * 2))) IH) as (f2 & r2 & E & X).
      injection E as <- <-. exact X.
    + inversion Rn as [| |? ? ? ? Na Na' _ E1 E2]; subst.
      inversion Bv as [| |?|? f r T Tv|? ? ? T]; subst; [|contradiction]. inversion Bw as [| |?|? f' r' T' Tw|? ? ? T']; subst; [|contradiction].
      rewrite Tv in H1. injection H1 as <-. rewrite Tw in H2. injection H2 as <-.
      destruct (one_split _ (dash spaces) (fun s => repeat cSPACE spaces ++ s) _ _ _
        (renamed_dash k k') (renamed_after k k' (repeat cSPACE spaces)) IH) as (f2 & r2 & E & X).
      injection E as <- <-. exact X.
Qed.

(** Rename one member, anywhere but in a table: the text has as many lines as before, and differs in one line,
    where the new name stands in place of the old one. *)
Theorem C67_renamed_member :
  forall (k k' : str) (v w : json) (ls : list str),
    renamed k k' v w -> lines v = Ok ls ->
    exists before x kt kt' y after,
      key_text k kt /\ key_text k' kt' /\
      ls = before ++ (x ++ kt ++ y) :: after /\ lines w = Ok (before ++ (x ++ kt' ++ y) :: after).
Proof.
  intros k k' v w ls R H. destruct (lines_total w) as (ls' & H').
  destruct (renamed_lines _ _ _ _ R _ _ H H') as (be & s & s' & af & -> & -> & x & kt & kt' & y & -> & -> & K & K').
  exists be, x, kt, kt', y, af. auto.
Qed.
End Options.
Print Assumptions C67_renamed_member.

(** A member of an item of a list inside a list; in a table every line may change. *)
Definition order (name : string) : json :=
  JObj [(lit "orders", JArr [JArr [JObj [(lit "id", JPrim (PBool true)); (lit name, JObj [(lit "a", JPrim PNull)])]; JPrim PNull]])].
Example C67_renamed_case :
  renamed (lit "items") (lit "the items") (order "items") (order "the items") /\
  encode_lines 0 (order "items") None =
    Ok [lit "orders[1]:"; lit "  - [2]:"; lit "    - id: true"; lit "      items:"; lit "        a: null"; lit "    - null"] /\
  encode_lines 0 (order "the items") None =
    Ok [lit "orders[1]:"; lit "  - [2]:"; lit "    - id: true"; lit "      ""the items"":"; lit "        a: null"; lit "    - null"].
Proof.
  split; [|split; vm_compute; reflexivity].
  assert (T1 : forall x r, ~ tabled (JArr x :: r)) by (intros x r (f & rows & _ & (fs & r' & E & _) & _); discriminate).
  assert (T2 : forall x p r, ~ tabled (x :: JPrim p :: r)).
  { intros x p r (f & rows & _ & _ & F). inversion F as [|? ? ? ? _ F']; subst. inversion F' as [|? ? ? ? (ms & E & _) _]; subst. discriminate. }
  apply (rn_member _ _ [] _ _ _ []).
  apply (rn_item _ _ [] _ _ []); [apply T1|apply T1|].
  apply (rn_item _ _ [] _ _ [JPrim PNull]); [apply T2|apply T2|].
  apply (rn_here _ _ [(lit "id", JPrim (PBool true))] _ []).
Qed.
Example C67_renamed_in_table :
  encode_lines 0 (JArr [JObj [(lit "a", JPrim PNull)]; JObj [(lit "a", JPrim PNull)]]) None = Ok [lit "[2]{a}:"; lit "  null"; lit "  null"] /\
  encode_lines 0 (JArr [JObj [(lit "a", JPrim PNull)]; JObj [(lit "b", JPrim PNull)]]) None = Ok [lit "[2]:"; lit "  - a: null"; lit "  - b: null"].
Proof. split; vm_compute; reflexivity. Qed.
