(** Replacing a word in one of the lines of a document. *)
From Verif Require Import Chars Floats Json Shared Parser Decoders DecodeApi Lex Spec SpecText SpecRead ReadLex ReadHead ReadLine ReadProof
  SpecError ErrLex ErrProof SpecCut PropsUnread CutProof SpecEdit EditText.

Local Open Scope nat_scope.

(** ** Trees in which one primitive value differs *)
Inductive one_leaf (R : prim -> prim -> Prop) : tree -> tree -> Prop :=
| ol_prim p p' : R p p' -> one_leaf R (TPrim p) (TPrim p')
| ol_item n a v w b : one_leaf R v w -> one_leaf R (TArr n (a ++ v :: b)) (TArr n (a ++ w :: b))
| ol_member a k v w b : one_leaf R v w -> one_leaf R (TObj (a ++ (k, v) :: b)) (TObj (a ++ (k, w) :: b)).

Section Edit.
Variable strict : bool.
Variable blanks : list nat.
Notation member := (member parse_f64 strict blanks).
Notation members := (members parse_f64 strict blanks).
Notation array := (array parse_f64 strict blanks).
Notation items := (items parse_f64 strict blanks).
Notation item := (item parse_f64 strict blanks).
Notation rows := (rows parse_f64 strict).

Variables X c c' y : str.
Hypothesis Hc : word c.
Hypothesis Hc' : word c'.
Hypothesis HX : open X.
Hypothesis Hy : plain_after y.
Hypothesis Hd : X = [] -> ~ dashed c /\ ~ dashed c'.
Notation R := (rewritten parse_f64 X c c' y).

(** Replaced, or not read in lenient mode. *)
Definition edited (v w : tree) : Prop := one_leaf R v w \/ (strict = false /\ w = v).
Definition edited_list (l m : list tree) : Prop := exists a v w b, l = a ++ v :: b /\ m = a ++ w :: b /\ edited v w.
Definition edited_member (m m' : str * bool * tree) : Prop := fst m' = fst m /\ edited (snd m) (snd m').
Definition edited_members (l m : list (str * bool * tree)) : Prop := exists a v w b, l = a ++ v :: b /\ m = a ++ w :: b /\ edited_member v w.

Lemma edited_arr n l m : edited_list l m -> edited (TArr n l) (TArr n m).
Proof. intros (a & v & w & b & -> & -> & [H|(S & ->)]); [left; now constructor|now right]. Qed.
Lemma edited_obj l m : edited_members l m -> edited (TObj l) (TObj m).
Proof.
  intros (a & (k & v) & (k' & w) & b & -> & -> & E & H). cbn in E, H. subst k'. destruct H as [H|(S & ->)]; [left; now constructor|now right].
Qed.
Lemma list_here v w b : edited v w -> edited_list (v :: b) (w :: b).
Proof. intros H. exists [], v, w, b. auto. Qed.
Lemma list_later x l m : edited_list l m -> edited_list (x :: l) (x :: m).
Proof. intros (a & v & w & b & -> & -> & H). exists (x :: a), v, w, b. auto. Qed.
Lemma members_here v w b : edited_member v w -> edited_members (v :: b) (w :: b).
Proof. intros H. exists [], v, w, b. auto. Qed.
Lemma members_later x l m : edited_members l m -> edited_members (x :: l) (x :: m).
Proof. intros (a & v & w & b & -> & -> & H). exists (x :: a), v, w, b. auto. Qed.

Lemma R_suffix x0 x p p' : X = x0 ++ x -> rewritten parse_f64 x c c' y p p' -> R p p'.
Proof. intros -> (a & b & d & e & -> & -> & H). exists (x0 ++ a), b, d, e. rewrite app_assoc. auto. Qed.

(** ** One line *)
Lemma rewritten_tail x T ps dl t : X = x ++ T -> any_delim dl -> trims (T ++ c ++ y) t -> prims_text parse_f64 dl t ps ->
  exists t' a p p' b, trims (T ++ c' ++ y) t' /\ t' <> [] /\ ps = a ++ p :: b /\ R p p' /\ prims_text parse_f64 dl t' (a ++ p' :: b).
Proof.
  intros EX Hdl Tt Pt. destruct (around T y) as (w & x1 & y1 & z & -> & Ez & Hw & Hz & _ & _ & Ht).
  rewrite (trims_fun _ _ _ Tt (Ht c Hc)) in Pt. assert (O : open x1) by (eapply open_suffix, open_suffix; rewrite <- EX; eauto).
  destruct (prims_swap c c' Hc Hc' dl x1 y1 ps Hdl O Pt) as (a & p & p' & b & -> & (u0 & u1 & d1 & d0 & -> & Ed & P1 & P2) & P').
  exists (( u0 ++ u1) ++ c' ++ y1), a, p, p', b. split; [apply Ht; exact Hc'|]. split; [now apply app_word_nil|]. split; [reflexivity|].
  split; [|exact P']. exists (x ++ w ++ u0), u1, d1, (d0 ++ z). rewrite EX, Ez, Ed, <- !app_assoc. auto.
Qed.
Lemma map_leaf a p p' b n : R p p' -> edited (TArr n (map TPrim (a ++ p :: b))) (TArr n (map TPrim (a ++ p' :: b))).
Proof. intros H. left. rewrite !map_app. cbn [map]. constructor. now constructor. Qed.
Lemma array_text x T d h ls v rest : X = x ++ T -> head_delim h -> array d h (T ++ c ++ y) ls v rest ->
  exists v', edited v v' /\ array d h (T ++ c' ++ y) ls v' rest.
Proof.
  intros EX Hdl H. inversion H as [? ? ? ? t ps Tt N Pt Hn| |]; subst.
  - destruct (rewritten_tail x T ps _ t EX Hdl Tt Pt) as (t' & a & p & p' & b & Tt' & N' & -> & Hr & Pt').
    eexists. split; [apply map_leaf; exact Hr|]. eapply ar_inline; eauto. intros S. rewrite <- (Hn S), !app_length. reflexivity.
  - exfalso. eapply not_blank; [exact Hc|eassumption].
  - exfalso. eapply not_blank; [exact Hc|eassumption].
Qed.
Lemma member_text x0 x d ls m rest : X = x0 ++ x -> member d (x ++ c ++ y) ls m rest ->
  exists m', edited_member m m' /\ member d (x ++ c' ++ y) ls m' rest.
Proof.
  intros EX H. assert (O : open x) by (eapply open_suffix; rewrite <- EX; exact HX).
  inversion H as [? ? ? h tail k q v ? Hh Hk Ha|? ? ? k q r l ls' ms ? P K B| ? ? ? k q r P K B|? ? ? k q r p P K B Pt]; subst.
  - destruct (header_swap c c' y Hc Hc' Hy _ _ _ Hh) as (x1 & T & -> & -> & Hh').
    destruct (array_text (x0 ++ x1) T d h ls v rest) as (v' & Hv & Ha'); [now rewrite <- app_assoc|eapply header_delim; eauto|exact Ha|].
    exists (k, q, v'). split; [now split|]. eapply mb_array; eauto.
  - destruct (key_swap c c' y Hc Hc' Hy _ _ _ _ K) as (x1 & T & -> & -> & K'). exfalso. eapply not_blank; [exact Hc|eassumption].
  - destruct (key_swap c c' y Hc Hc' Hy _ _ _ _ K) as (x1 & T & -> & -> & K'). exfalso. eapply not_blank; [exact Hc|eassumption].
  - destruct (key_swap c c' y Hc Hc' Hy _ _ _ _ K) as (x1 & T & -> & -> & K').
    destruct (token_swap c c' Hc Hc' T y p) as (p' & Pt' & Hr); [eapply open_suffix; eauto|exact Pt|].
    exists (k, q, TPrim p'). split; [split; [reflexivity|left; constructor]|].
    + eapply (R_suffix (x0 ++ x1) T); [now rewrite <- app_assoc|exact Hr].
    + eapply mb_prim; [now apply (plain_swap c c' y)|exact K'|now apply not_blank|exact Pt'].
Qed.

(** The line itself. *)
Notation t0 := (X ++ c ++ y).
Notation t1 := (X ++ c' ++ y).
Lemma dash_cases u t : word u -> (X = [] -> ~ dashed u) -> X ++ u ++ y = cMINUS :: cSPACE :: t -> exists X0, X = cMINUS :: cSPACE :: X0 /\ t = X0 ++ u ++ y.
Proof.
  intros (N & _ & T & _) D E. destruct X as [|h [|h' X0]]; cbn in E.
  - exfalso. destruct u as [|h [|h' u]]; [congruence| |]; cbn in E; apply (D eq_refl).
    + injection E as -> _. now left.
    + injection E as -> -> _. right. eauto.
  - exfalso. destruct u as [|h' u]; [congruence|]. cbn in E. injection E as _ -> _. specialize (T _ _ eq_refl). discriminate.
  - injection E as -> -> <-. eauto.
Qed.
Lemma hyphen_swap u u' : word u -> (X = [] -> ~ dashed u) -> hyphen (X ++ u ++ y) -> hyphen (X ++ u' ++ y).
Proof. intros W D (t & E). destruct (dash_cases u t W D E) as (X0 & E0 & _). rewrite E0. cbn. exists (X0 ++ u' ++ y). reflexivity. Qed.
Lemma not_dash u : word u -> (X = [] -> ~ dashed u) -> X ++ u ++ y <> [cMINUS].
Proof.
  intros (N & _) D E. destruct X as [|h X0]; cbn in E.
  - destruct u as [|h [|? ?]]; [congruence| |discriminate]. cbn in E. injection E as -> _. apply (D eq_refl). now left.
  - injection E as _ E. apply app_eq_nil in E as [_ E]. apply app_eq_nil in E as [E _]. congruence.
Qed.
Lemma item_text d ls v rest : item d t0 ls v rest -> exists v', edited v v' /\ item d t1 ls v' rest.
Proof.
  intros H. remember t0 as t eqn:Et. assert (D := fun E => proj1 (Hd E)).
  destruct H as [d ls|d t ls B|d t ls h tail v rest B U Hh Ha|d t ls m ls1 ms rest B U Hh Hm Hs|d t ls p B U Hh Pt].
  - exfalso. symmetry in Et. revert Et. now apply not_dash.
  - exfalso. symmetry in Et. destruct (dash_cases c t Hc D Et) as (X0 & _ & ->). eapply not_blank; [exact Hc|exact B].
  - symmetry in Et. destruct (dash_cases c t Hc D Et) as (X0 & EX & ->).
    assert (O : open X0) by (rewrite EX in HX; now apply open_cons, open_cons in HX).
    destruct (header_swap c c' y Hc Hc' Hy _ _ _ Hh) as (x1 & T & -> & -> & Hh').
    destruct (array_text (cMINUS :: cSPACE :: x1) T d h ls v rest EX) as (v' & Hv & Ha'); [eapply header_delim; eauto|exact Ha|].
    exists v'. split; [exact Hv|]. rewrite EX. cbn [app]. eapply im_array; eauto.
    + apply (begins_swap c c' Hc); [cbn; tauto|exact B].
    + eapply (unquoted_swap c c'); eauto. cbn; tauto.
  - symmetry in Et. destruct (dash_cases c t Hc D Et) as (X0 & EX & ->).
    assert (O : open X0) by (rewrite EX in HX; now apply open_cons, open_cons in HX).
    destruct (member_text [cMINUS; cSPACE] X0 (S d) ls m ls1 EX Hm) as (m' & Em & Hm').
    exists (TObj (m' :: ms)). split; [apply edited_obj, members_here; exact Em|]. rewrite EX. cbn [app]. eapply im_object; eauto.
    + now apply not_blank.
    + destruct U as [U|(h & tail & Hh0 & F)]; [left; eapply (unquoted_swap c c'); eauto; cbn; tauto|right].
      destruct (header_swap c c' y Hc Hc' Hy _ _ _ Hh0) as (x1 & T & _ & _ & Hh'). eauto.
    + intros h tail Hh0. destruct (header_swap c' c y Hc' Hc Hy _ _ _ Hh0) as (x1 & T & _ & _ & Hh'). eauto.
  - symmetry in Et. destruct (dash_cases c t Hc D Et) as (X0 & EX & ->).
    assert (O : open X0) by (rewrite EX in HX; now apply open_cons, open_cons in HX).
    destruct (token_swap c c' Hc Hc' X0 y p O Pt) as (p' & Pt' & Hr).
    exists (TPrim p'). split; [left; constructor; now apply (R_suffix [cMINUS; cSPACE] X0)|]. rewrite EX. cbn [app]. apply im_prim.
    + now apply not_blank.
    + intros U'. apply U. eapply (unquoted_swap c' c); eauto. cbn; tauto.
    + destruct Hh as [Hn|(h & tail & Hh & K)]; [left; now apply (no_header_swap c c' y)|right].
      destruct (header_swap c c' y Hc Hc' Hy _ _ _ Hh) as (x1 & T & _ & _ & Hh'). eauto.
    + exact Pt'.
Qed.

(** ** Lines *)
Variable no : nat.
Inductive swapped : list tline -> list tline -> Prop :=
| sw_here d ls : swapped (TLine no d t0 :: ls) (TLine no d t1 :: ls)
| sw_later l a b : swapped a b -> swapped (l :: a) (l :: b).
Lemma swapped_nos a b : swapped a b -> map tl_no a = map tl_no b.
Proof. induction 1; cbn; congruence. Qed.
Lemma ends_swapped (P : tline -> Prop) ls ls' : (forall n d, P (TLine n d t1) -> P (TLine n d t0)) -> swapped ls ls' -> ends P ls -> ends P ls'.
Proof. intros HP [d r|l a b _] E l' r' [= <- <-] Hl; (eapply E; [reflexivity|]); auto. Qed.
Lemma gap_nos a b : map tl_no a = map tl_no b -> no_gap blanks a -> no_gap blanks b.
Proof.
  intros E H l1 l2 m z E1 E2 n Hn. subst b. cbn in E. destruct a as [|l1' m']; [discriminate|]. cbn in E. injection E as En Em.
  destruct (list_last_cases (l1' :: m')) as [|(z' & l2' & E3)]; [discriminate|].
  assert (El : tl_no l2' = tl_no l2).
  { assert (E4 : map tl_no (l1' :: m') = map tl_no (l1 :: m)) by (cbn; congruence). rewrite E2, E3, !map_app in E4. cbn in E4.
    apply app_inj_tail in E4 as [_ E4]. exact E4. }
  rewrite <- En, <- El. eapply H; eauto.
Qed.
Lemma used_nos ls ls' used used' rest rest' : swapped ls ls' -> ls = used ++ rest -> ls' = used' ++ rest' -> length rest = length rest' ->
  map tl_no used = map tl_no used'.
Proof.
  intros S -> -> L. apply swapped_nos in S. rewrite !map_app in S. assert (L2 : length (map tl_no used) = length (map tl_no used')).
  { apply (f_equal (@length _)) in S. rewrite !app_length, !map_length in S. rewrite !map_length. lia. }
  apply app_inv_length in S; tauto.
Qed.
Lemma swapped_length a b : swapped a b -> length a = length b.
Proof. intros S. apply swapped_nos, (f_equal (@length _)) in S. now rewrite !map_length in S. Qed.

Lemma row_edit fs : forall a p p' b, R p p' -> (strict = true -> length (a ++ p :: b) = length fs) ->
  edited (TObj (row_members fs (a ++ p :: b))) (TObj (row_members fs (a ++ p' :: b))).
Proof.
  intros a p p' b Hr L. assert (H : edited_members (row_members fs (a ++ p :: b)) (row_members fs (a ++ p' :: b)) \/
    (length fs <= length a /\ row_members fs (a ++ p :: b) = row_members fs (a ++ p' :: b))).
  { clear L. revert a. induction fs as [|f fs IH]; intros a; [right; split; [cbn; lia|reflexivity]|].
    destruct a as [|q a]; cbn [app row_members].
    - left. apply members_here. split; [reflexivity|]. left. now constructor.
    - destruct (IH a) as [H|(H & E)]; [left; now apply members_later|right]. split; [cbn; lia|congruence]. }
  destruct H as [H|(H & E)]; [now apply edited_obj|right]. rewrite E. split; [|reflexivity].
  destruct strict; [|reflexivity]. specialize (L eq_refl). rewrite app_length in L. cbn in L. lia.
Qed.

Definition D0 : X = [] -> ~ dashed c := fun E => proj1 (Hd E).
Definition D1 : X = [] -> ~ dashed c' := fun E => proj2 (Hd E).

Lemma rows_edit dl fs d n ls vs rest : any_delim dl -> rows dl fs d n ls vs rest -> forall ls', swapped ls ls' ->
  (exists rest', swapped rest rest' /\ rows dl fs d n ls' vs rest') \/ (exists vs', edited_list vs vs' /\ length vs' = length vs /\ rows dl fs d n ls' vs' rest).
Proof.
  intros Hdl. induction 1 as [ls|n ls E|n l ls ps vs rest D P L H IH]; intros ls' S.
  - left. exists ls'. split; [exact S|constructor].
  - left. exists ls'. split; [exact S|]. constructor. eapply ends_swapped; [|exact S|exact E]. auto.
  - inversion S as [e r|l' a b S']; subst; clear S.
    + cbn [tl_depth tl_text] in *. destruct (prims_swap c c' Hc Hc' dl X y ps Hdl HX P) as (a & p & p' & b & -> & Hr & P').
      right. exists (TObj (row_members fs (a ++ p' :: b)) :: vs). split; [apply list_here, row_edit; auto|]. split; [reflexivity|].
      apply rw_more; auto. intros S. rewrite <- (L S), !app_length. reflexivity.
    + destruct (IH _ S') as [(rest' & Sr & H')|(vs' & Hv & Lv & H')].
      * left. exists rest'. split; [exact Sr|]. now apply rw_more.
      * right. eexists. split; [apply list_later; exact Hv|]. split; [cbn; congruence|]. now apply rw_more.
Qed.

Lemma read_edit :
  (forall d t ls m rest, member d t ls m rest -> forall ls', swapped ls ls' ->
     (exists rest', swapped rest rest' /\ member d t ls' m rest') \/ (exists m', edited_member m m' /\ member d t ls' m' rest)) /\
  (forall stop d ls ms rest, members stop d ls ms rest -> forall ls', swapped ls ls' ->
     (exists rest', swapped rest rest' /\ members stop d ls' ms rest') \/ (exists ms', edited_members ms ms' /\ members stop d ls' ms' rest)) /\
  (forall d h tail ls v rest, array d h tail ls v rest -> head_delim h -> forall ls', swapped ls ls' ->
     (exists rest', swapped rest rest' /\ array d h tail ls' v rest') \/ (exists v', edited v v' /\ array d h tail ls' v' rest)) /\
  (forall d n ls vs rest, items d n ls vs rest -> forall ls', swapped ls ls' ->
     (exists rest', swapped rest rest' /\ items d n ls' vs rest') \/ (exists vs', edited_list vs vs' /\ length vs' = length vs /\ items d n ls' vs' rest)) /\
  (forall d t ls v rest, item d t ls v rest -> forall ls', swapped ls ls' ->
     (exists rest', swapped rest rest' /\ item d t ls' v rest') \/ (exists v', edited v v' /\ item d t ls' v' rest)).
Proof.
  apply read_mutind.
  - (* mb_array *) intros d t ls h tail k q v rest Hh Hk Ha IH ls' S. destruct (IH (header_delim _ _ _ Hh) _ S) as [(rest' & Sr & H)|(v' & Ev & H)].
    + left. exists rest'. split; [exact Sr|]. eapply mb_array; eauto.
    + right. exists (k, q, v'). split; [now split|]. eapply mb_array; eauto.
  - (* mb_object *) intros d t ls k q r l ls1 ms rest P K B -> Dl Hm IH ls' S. assert (Dep : exists l' ls2, ls' = l' :: ls2 /\ tl_depth l' = tl_depth l).
    { inversion S; subst; eexists _, _; (split; [reflexivity|]); reflexivity. }
    destruct Dep as (l' & ls2 & -> & Ed). destruct (IH _ S) as [(rest' & Sr & H)|(ms' & Ev & H)]; rewrite <- Ed in H.
    + left. exists rest'. split; [exact Sr|]. eapply mb_object; eauto. lia.
    + right. exists (k, q, TObj ms'). split; [split; [reflexivity|now apply edited_obj]|]. eapply mb_object; eauto. lia.
  - (* mb_empty *) intros d t ls k q r P K B E ls' S. left. exists ls'. split; [exact S|]. eapply mb_empty; eauto. eapply ends_swapped; [|exact S|exact E]. auto.
  - (* mb_prim *) intros d t ls k q r p P K B Pt ls' S. left. exists ls'. split; [exact S|]. eapply mb_prim; eauto.
  - (* ms_end *) intros stop d ls E ls' S. left. exists ls'. split; [exact S|]. constructor. eapply ends_swapped; [|exact S|exact E].
    intros n e (H1 & H2). split; [exact H1|]. intros (H3 & H4). apply H2. split; [exact H3|]. revert H4. apply hyphen_swap; [exact Hc|exact D0].
  - (* ms_more *) intros stop d l ls m ls1 ms rest Dl Hn Hm IH1 Hs IH2 ls' S. inversion S as [e r|l' a b S']; subst; clear S.
    + cbn [tl_depth tl_text] in *. destruct (member_text [] X e ls m ls1 eq_refl Hm) as (m' & Em & Hm'). right. exists (m' :: ms).
      split; [now apply members_here|]. eapply ms_more; eauto. cbn [tl_text]. intros (H3 & H4). apply Hn. split; [exact H3|]. revert H4. apply hyphen_swap; [exact Hc'|exact D1].
    + destruct (IH1 _ S') as [(ls1' & S1 & H1)|(m' & Em & H1)].
      * destruct (IH2 _ S1) as [(rest' & Sr & H2)|(ms' & Ev & H2)].
        -- left. exists rest'. split; [exact Sr|]. eapply ms_more; eauto.
        -- right. exists (m :: ms'). split; [now apply members_later|]. eapply ms_more; eauto.
      * right. exists (m' :: ms). split; [now apply members_here|]. eapply ms_more; eauto.
  - (* ar_inline *) intros d h tail ls t ps T N P L Hh ls' S. left. exists ls'. split; [exact S|]. eapply ar_inline; eauto.
  - (* ar_table *) intros d h tail ls fs vs used rest B F N Hr E Hs Hh ls' S.
    destruct (rows_edit _ _ _ _ _ _ _ Hh Hr ls' S) as [(rest' & Sr & H)|(vs' & Ev & Lv & H)].
    + left. exists rest'. split; [exact Sr|]. destruct (rows_uses _ _ _ _ _ _ _ _ _ H) as (used' & Eu & _).
      eapply ar_table; eauto. intros St. destruct (Hs St) as (Hn & Hg & He). split; [exact Hn|]. split.
      * eapply gap_nos; [|exact Hg]. apply (used_nos ls ls' used used' rest rest' S E Eu). now apply swapped_length.
      * eapply ends_swapped; [|exact Sr|exact He]. cbn. intros n e (H1 & H2 & H3). split; [exact H1|]. split.
        -- intros H4. apply H2. revert H4. apply hyphen_swap; [exact Hc|exact D0].
        -- revert H3. now apply data_row_swap.
    + right. eexists. split; [apply edited_arr; exact Ev|]. destruct (rows_uses _ _ _ _ _ _ _ _ _ H) as (used' & Eu & _).
      eapply ar_table; eauto. intros St. destruct (Hs St) as (Hn & Hg & He). split; [congruence|]. split; [|exact He].
      eapply gap_nos; [|exact Hg]. apply (used_nos ls ls' used used' rest rest S E Eu). reflexivity.
  - (* ar_list *) intros d h tail ls vs used rest B F Hi IH E Hs Hh ls' S. destruct (IH _ S) as [(rest' & Sr & H)|(vs' & Ev & Lv & H)].
    + left. exists rest'. split; [exact Sr|]. destruct (proj1 (proj2 (proj2 (proj2 (read_uses _ _ _)))) _ _ _ _ _ H) as (used' & Eu & _).
      eapply ar_list; eauto. intros St. destruct (Hs St) as (Hn & Hg & He). split; [exact Hn|]. split.
      * eapply gap_nos; [|exact Hg]. apply (used_nos ls ls' used used' rest rest' S E Eu). now apply swapped_length.
      * eapply ends_swapped; [|exact Sr|exact He]. cbn. intros n e (H1 & H2). split; [exact H1|]. revert H2. apply hyphen_swap; [exact Hc'|exact D1].
    + right. eexists. split; [apply edited_arr; exact Ev|]. destruct (proj1 (proj2 (proj2 (proj2 (read_uses _ _ _)))) _ _ _ _ _ H) as (used' & Eu & _).
      eapply ar_list; eauto. intros St. destruct (Hs St) as (Hn & Hg & He). split; [congruence|]. split; [|exact He].
      eapply gap_nos; [|exact Hg]. apply (used_nos ls ls' used used' rest rest S E Eu). reflexivity.
  - (* is_full *) intros d ls ls' S. left. exists ls'. split; [exact S|constructor].
  - (* is_end *) intros d n ls E ls' S. left. exists ls'. split; [exact S|]. constructor. eapply ends_swapped; [|exact S|exact E].
    cbn. intros n' e (H1 & [H2|H2]); (split; [exact H1|]).
    + exfalso. revert H2. apply not_dash; [exact Hc'|exact D1].
    + right. revert H2. apply hyphen_swap; [exact Hc'|exact D1].
  - (* is_more *) intros d n l ls v ls1 vs rest Dl Hi IH1 Hs IH2 ls' S. inversion S as [e r|l' a b S']; subst; clear S.
    + cbn [tl_depth tl_text] in *. destruct (item_text _ _ _ _ Hi) as (v' & Ev & Hi'). right. exists (v' :: vs).
      split; [now apply list_here|]. split; [reflexivity|]. eapply is_more; eauto.
    + destruct (IH1 _ S') as [(ls1' & S1 & H1)|(v' & Em & H1)].
      * destruct (IH2 _ S1) as [(rest' & Sr & H2)|(vs' & Ev & Lv & H2)].
        -- left. exists rest'. split; [exact Sr|]. eapply is_more; eauto.
        -- right. exists (v :: vs'). split; [now apply list_later|]. split; [cbn; congruence|]. eapply is_more; eauto.
      * right. exists (v' :: vs). split; [now apply list_here|]. split; [reflexivity|]. eapply is_more; eauto.
  - (* im_bare *) intros d ls ls' S. left. exists ls'. split; [exact S|constructor].
  - intros d t ls B ls' S. left. exists ls'. split; [exact S|now constructor].
  - intros d t ls h tail v rest B U Hh Ha IH ls' S. destruct (IH (header_delim _ _ _ Hh) _ S) as [(rest' & Sr & H)|(v' & Ev & H)].
    + left. exists rest'. split; [exact Sr|]. eapply im_array; eauto.
    + right. exists v'. split; [exact Ev|]. eapply im_array; eauto.
  - intros d t ls m ls1 ms rest B U Hh Hm IH1 Hs IH2 ls' S. destruct (IH1 _ S) as [(ls1' & S1 & H1)|(m' & Em & H1)].
    + destruct (IH2 _ S1) as [(rest' & Sr & H2)|(ms' & Ev & H2)].
      * left. exists rest'. split; [exact Sr|]. eapply im_object; eauto.
      * right. exists (TObj (m :: ms')). split; [now apply edited_obj, members_later|]. eapply im_object; eauto.
    + right. exists (TObj (m' :: ms)). split; [now apply edited_obj, members_here|]. eapply im_object; eauto.
  - intros d t ls p B U Hh Pt ls' S. left. exists ls'. split; [exact S|]. now apply im_prim.
Qed.

Lemma root_edit ls v rest : root_to parse_f64 strict blanks ls v rest -> forall ls', swapped ls ls' ->
  (exists rest', swapped rest rest' /\ root parse_f64 strict blanks ls' v) \/ (exists v', edited v v' /\ root parse_f64 strict blanks ls' v').
Proof.
  destruct read_edit as (Em & Es & Ea & _ & _).
  assert (N' : ~ (begins cLBRACK t0 /\ unquoted cCOLON t0) \/ no_header t0 -> ~ (begins cLBRACK t1 /\ unquoted cCOLON t1) \/ no_header t1).
  { intros [N|N]; [left|right; now apply (no_header_swap c c' y)]. intros (B & U). apply N. split.
    - revert B. apply (begins_swap c' c Hc'). cbn; tauto.
    - revert U. apply (unquoted_swap c' c Hc' Hc); [cbn; tauto|exact HX]. }
  destruct 1 as [|l ls h tail v rest B Q H A|l p N C P|l ls m ls1 ms rest N M Hs]; intros ls' S.
  - inversion S.
  - inversion S as [e r|l' a b S']; subst; clear S.
    + cbn [tl_text] in *. destruct (header_swap c c' y Hc Hc' Hy _ _ _ H) as (x1 & T & EX & -> & Hh').
      destruct (array_text x1 T 0 h ls v rest EX) as (v' & Ev & A'); [eapply header_delim; eauto|exact A|].
      right. exists v'. split; [exact Ev|]. eapply ro_array; cbn [tl_text]; eauto.
      * revert B. apply (begins_swap c c' Hc). cbn; tauto.
      * revert Q. apply (unquoted_swap c c' Hc Hc'); [cbn; tauto|exact HX].
    + destruct (Ea _ _ _ _ _ _ A (header_delim _ _ _ H) _ S') as [(rest' & Sr & H')|(v' & Ev & H')].
      * left. exists rest'. split; [exact Sr|]. eapply ro_array; eauto.
      * right. exists v'. split; [exact Ev|]. eapply ro_array; eauto.
  - inversion S as [e r|l' a b S']; subst; clear S; [|inversion S'].
    cbn [tl_text] in *. destruct (token_swap c c' Hc Hc' X y p HX P) as (p' & Pt' & Hr). right. exists (TPrim p'). split; [left; now constructor|].
    apply ro_prim; cbn [tl_text]; auto. intros C'. apply C. revert C'. now apply (has_colon_swap c' c y).
  - inversion S as [e r|l' a b S']; subst; clear S.
    + cbn [tl_text] in *. destruct (member_text [] X 0 ls m ls1 eq_refl M) as (m' & Ed & M'). right. exists (TObj (m' :: ms)).
      split; [now apply edited_obj, members_here|]. eapply ro_object; cbn [tl_text]; eauto. right. eapply member_has_colon; eauto.
    + destruct (Em _ _ _ _ _ M _ S') as [(ls1' & S1 & H1)|(m' & Ed & H1)].
      * destruct (Es _ _ _ _ _ Hs _ S1) as [(rest' & Sr & H2)|(ms' & Ev & H2)].
        -- left. exists rest'. split; [exact Sr|]. eapply ro_object; eauto. right. eapply member_has_colon; eauto.
        -- right. exists (TObj (m :: ms')). split; [now apply edited_obj, members_later|]. eapply ro_object; eauto. right. eapply member_has_colon; eauto.
      * right. exists (TObj (m' :: ms)). split; [now apply edited_obj, members_here|]. eapply ro_object; eauto. right. eapply member_has_colon; eauto.
Qed.
End Edit.
