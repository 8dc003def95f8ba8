(** Replacing the key of a line: the members, items and rows of a document. *)
From Verif Require Import Chars Floats Json Shared Parser Decoders DecodeApi Lex Spec SpecText SpecRead ReadLex ReadHead ReadLine ReadProof
  SpecError ErrLex ErrProof SpecCut PropsStream PropsUnread CutProof SpecEdit EditText EditProof SpecJoin JoinProof SpecDeep DeepProof KeyedProof SpecKeyEdit.

Local Open Scope nat_scope.

(** ** Trees in which the name of one member differs *)
Inductive one_key (R : str -> str -> Prop) : tree -> tree -> Prop :=
| ok_here a k k' q v b : R k k' -> one_key R (TObj (a ++ (k, q, v) :: b)) (TObj (a ++ (k', q, v) :: b))
| ok_item n a v w b : one_key R v w -> one_key R (TArr n (a ++ v :: b)) (TArr n (a ++ w :: b))
| ok_member a k v w b : one_key R v w -> one_key R (TObj (a ++ (k, v) :: b)) (TObj (a ++ (k, w) :: b)).

(** ** A key in front of its line *)
Lemma word_names c : word c -> names c c false.
Proof.
  intros W. assert (N := fun k => word_not k c W). destruct W as (Wn & _ & T1 & T2). constructor; auto.
  - apply N. cbn; tauto.
  - apply N. cbn; tauto.
  - intros r E. apply (N cDQ); [cbn; tauto|]. rewrite E. now left.
  - exists [], []. rewrite app_nil_r. repeat split; auto; constructor.
Qed.
Lemma word_item c : word c -> word (cMINUS :: cSPACE :: c).
Proof.
  intros (N & M & T1 & T2). split; [discriminate|]. split.
  - intros x [<-|[<-|H]]; [cbn; intuition discriminate|cbn; intuition discriminate|auto].
  - split.
    + intros x r [= <- _]. reflexivity.
    + intros x r E. destruct r as [|a [|b r]]; [discriminate|injection E as _ E; destruct c; [congruence|discriminate]|].
      injection E as _ _ E. eauto.
Qed.
Lemma not_quote W y : word W -> forall r, W ++ y <> cDQ :: r.
Proof.
  intros H r E. destruct H as (N & M & _). destruct W as [|h W]; [congruence|]. injection E as -> _. apply (M cDQ); [now left|cbn; tauto].
Qed.
Lemma colon_key W r : word W -> key_line (W ++ cCOLON :: r) W false r.
Proof.
  intros H. apply (kl_bare _ W); [now apply not_quote| |].
  - split; [reflexivity|]. apply word_not; [exact H|cbn; tauto].
  - destruct H as (_ & _ & T1 & T2). exists [], []. rewrite app_nil_r. repeat split; auto; constructor.
Qed.
Lemma no_bracket_header s h t : ~ In cLBRACK s -> ~ is_header s h t.
Proof.
  intros N H. destruct H as [k l f t1 key n dl fs (r & a & Hh & _) _ _ _ _]. apply N. destruct Hh as [k r _ (E & _)|w b r E _ _]; rewrite E.
  - rewrite in_app_iff. right. now left.
  - rewrite in_app_iff. right. right. rewrite in_app_iff. right. right. now left.
Qed.
Lemma begins_word k W y : word W -> In k marks -> ~ begins k (W ++ y).
Proof.
  intros H Hk B. destruct H as (N & M & T & _). destruct W as [|h W]; [congruence|]. apply (begins_cons k h (W ++ y)) in B; [|now apply (T h W)].
  subst h. apply (M k); [now left|exact Hk].
Qed.
Lemma colon_plain W r : word W -> ~ In cLBRACK r -> plain (W ++ cCOLON :: r).
Proof.
  intros H N. left. split.
  - intros w r0 E B. exfalso. apply (begins_word cDQ W (cCOLON :: r) H); [cbn; tauto|]. exists w, r0. auto.
  - intros k len fields tail (r0 & a & Hh & _). exfalso. assert (N' : ~ In cLBRACK (W ++ cCOLON :: r)).
    { rewrite in_app_iff. intros [I|[I|I]]; [|discriminate|contradiction]. revert I. apply word_not; [exact H|cbn; tauto]. }
    apply N'. destruct Hh as [k r1 _ (E & _)|w b r1 E _ _]; rewrite E.
    + rewrite in_app_iff. right. now left.
    + rewrite in_app_iff. right. right. rewrite in_app_iff. right. right. now left.
Qed.
Lemma colon_no_header W r h t : word W -> ~ In cLBRACK r -> ~ is_header (W ++ cCOLON :: r) h t.
Proof.
  intros H N. apply no_bracket_header. rewrite in_app_iff. intros [I|[I|I]]; [|discriminate|contradiction]. revert I. apply word_not; [exact H|cbn; tauto].
Qed.
Lemma header_colon s h t : is_header s h t -> In cCOLON s.
Proof.
  intros [k l f t1 key n dl fs (r & a & Hh & (Ec & _) & Ht) _ _ _ _].
  assert (Ia : In cCOLON a).
  { destruct Ht as [m r1 f0 r2 x t0 (E1 & _) _ (E2 & _) (E3 & _)|m t0 (E & _) _].
    - subst. rewrite !in_app_iff. right. right. rewrite in_app_iff. right. right. rewrite in_app_iff. right. now left.
    - subst. rewrite in_app_iff. right. now left. }
  assert (Ir : In cCOLON r) by (rewrite Ec, in_app_iff; right; now right).
  destruct Hh as [k0 r1 _ (E & _)|w b r1 E _ _]; rewrite E.
  - rewrite in_app_iff. right. now right.
  - rewrite in_app_iff. right. right. rewrite in_app_iff. right. right. now right.
Qed.

(** A member under another key. *)
Lemma member_key double strict blanks W W' y d ls m rest : word W -> word W' -> after_key y ->
  member double strict blanks d (W ++ y) ls m rest -> exists v, m = (W, false, v) /\ member double strict blanks d (W' ++ y) ls (W', false, v) rest.
Proof.
  intros H H' A M. destruct A as [r N|r h0 tail0 Hh0].
  - assert (K := colon_key W r H). assert (K' := colon_key W' r H'). assert (P' := colon_plain W' r H' N).
    inversion M as [? ? ? h tail k q v ? Hh Hk Ha|? ? ? k q r1 l ls' ms ? P K1 B| ? ? ? k q r1 P K1 B|? ? ? k q r1 p P K1 B Pt]; subst.
    + exfalso. revert Hh. now apply colon_no_header.
    + destruct (key_line_fun _ _ _ _ _ _ _ K K1) as (<- & <- & <-). eexists. split; [reflexivity|]. eapply mb_object; eauto.
    + destruct (key_line_fun _ _ _ _ _ _ _ K K1) as (<- & <- & <-). eexists. split; [reflexivity|]. eapply mb_empty; eauto.
    + destruct (key_line_fun _ _ _ _ _ _ _ K K1) as (<- & <- & <-). eexists. split; [reflexivity|]. eapply mb_prim; eauto.
  - assert (Hh := names_header _ _ _ _ _ _ (word_names W H) Hh0). assert (Hh' := names_header _ _ _ _ _ _ (word_names W' H') Hh0).
    assert (NP : ~ plain (W ++ cLBRACK :: r)).
    { intros [P|(h1 & t1 & P & E)]; [exact (header_not_none _ _ _ Hh P)|]. destruct (is_header_fun _ _ _ _ _ Hh P) as [<- _]. discriminate. }
    inversion M as [? ? ? h tail k q v ? Hh1 Hk Ha|? ? ? k q r1 l ls' ms ? P K1 B| ? ? ? k q r1 P K1 B|? ? ? k q r1 p P K1 B Pt]; subst; try contradiction.
    destruct (is_header_fun _ _ _ _ _ Hh Hh1) as [<- <-]. cbn [hl_key] in Hk. injection Hk as <- <-. eexists. split; [reflexivity|].
    eapply mb_array; [exact Hh'|reflexivity|]. apply (array_keyed _ _ _ _ _ _ _ _ _ (Some (W', false))) in Ha. exact Ha.
Qed.

Section KeyEdit.
Variable strict : bool.
Variable blanks : list nat.
Notation member := (member parse_f64 strict blanks).
Notation members := (members parse_f64 strict blanks).
Notation array := (array parse_f64 strict blanks).
Notation items := (items parse_f64 strict blanks).
Notation item := (item parse_f64 strict blanks).
Notation rows := (rows parse_f64 strict).

Variables X c c' y : str.
Hypothesis Hc : word c.
Hypothesis Hc' : word c'.
Hypothesis HXd : (X = [] /\ ~ dashed c /\ ~ dashed c') \/ X = [cMINUS; cSPACE].
Hypothesis Hy : after_key y.
Notation R := (rewritten parse_f64 X c c' y).
Notation RK := (renames c c').

Lemma HX : open X.
Proof. intros r E. destruct HXd as [(-> & _)| ->]; [now destruct r|]. destruct r as [|a [|b [|? r]]]; discriminate. Qed.
Lemma D0 : X = [] -> ~ dashed c. Proof. intros E. destruct HXd as [(_ & H & _)|H]; [exact H|congruence]. Qed.
Lemma D1 : X = [] -> ~ dashed c'. Proof. intros E. destruct HXd as [(_ & _ & H)|H]; [exact H|congruence]. Qed.

Lemma Hd : X = [] -> ~ dashed c /\ ~ dashed c'. Proof. intros E. split; [now apply D0|now apply D1]. Qed.
Definition dash_cases := EditProof.dash_cases X c c' y HX Hd.
Definition hyphen_swap := EditProof.hyphen_swap X c c' y HX Hd.
Definition not_dash := EditProof.not_dash X c c' y HX Hd.

(** Replaced, renamed, or not read in lenient mode. *)
Definition changed (v w : tree) : Prop := one_leaf R v w \/ one_key RK v w \/ (strict = false /\ w = v).
Definition changed_list (l m : list tree) : Prop := exists a v w b, l = a ++ v :: b /\ m = a ++ w :: b /\ changed v w.
Definition changed_member (m m' : str * bool * tree) : Prop :=
  (fst m' = fst m /\ changed (snd m) (snd m')) \/ (exists k k' q v, m = (k, q, v) /\ m' = (k', q, v) /\ RK k k').
Definition changed_members (l m : list (str * bool * tree)) : Prop := exists a v w b, l = a ++ v :: b /\ m = a ++ w :: b /\ changed_member v w.
Lemma changed_arr n l m : changed_list l m -> changed (TArr n l) (TArr n m).
Proof. intros (a & v & w & b & -> & -> & [H|[H|(S & ->)]]); [left; now constructor|right; left; now constructor|right; now right]. Qed.
Lemma changed_obj l m : changed_members l m -> changed (TObj l) (TObj m).
Proof.
  intros (a & m0 & m1 & b & -> & -> & [(E & H)|(k & k' & q & v & -> & -> & H)]).
  - destruct m0 as (k & v), m1 as (k' & w). cbn in E, H. subst k'. destruct H as [H|[H|(S & ->)]]; [left; now constructor|right; left; now constructor|right; now right].
  - right. left. now constructor.
Qed.
Lemma list_here v w b : changed v w -> changed_list (v :: b) (w :: b).
Proof. intros H. exists [], v, w, b. auto. Qed.
Lemma list_later x l m : changed_list l m -> changed_list (x :: l) (x :: m).
Proof. intros (a & v & w & b & -> & -> & H). exists (x :: a), v, w, b. auto. Qed.
Lemma members_here v w b : changed_member v w -> changed_members (v :: b) (w :: b).
Proof. intros H. exists [], v, w, b. auto. Qed.
Lemma members_later x l m : changed_members l m -> changed_members (x :: l) (x :: m).
Proof. intros (a & v & w & b & -> & -> & H). exists (x :: a), v, w, b. auto. Qed.
Lemma same_name k k' v w : k' = k -> changed v w -> changed_member (k, v) (k', w).
Proof. intros -> H. left. now split. Qed.

Notation t0 := (X ++ c ++ y).
Notation t1 := (X ++ c' ++ y).
Lemma member_text d ls m rest : member d t0 ls m rest -> exists m', changed_member m m' /\ member d t1 ls m' rest.
Proof.
  intros M. destruct HXd as [(E & _)|E]; rewrite E in M |- *; cbn [app] in M |- *.
  - destruct (member_key _ _ _ c c' y d ls m rest Hc Hc' Hy M) as (v & -> & M'). exists (c', false, v). split; [|exact M'].
    right. exists c, c', false, v. repeat split. left. auto.
  - destruct (member_key _ _ _ _ _ y d ls m rest (word_item c Hc) (word_item c' Hc') Hy M) as (v & -> & M').
    exists (cMINUS :: cSPACE :: c', false, v). split; [|exact M']. right. do 4 eexists. split; [reflexivity|]. split; [reflexivity|]. right. auto.
Qed.
Lemma colon_after u : word u -> (exists r, y = cCOLON :: r) -> unquoted cCOLON (u ++ y).
Proof.
  intros W (r & ->). exists u, r. split; [reflexivity|]. assert (M := proj1 (proj2 W)). clear W. induction u as [|h u IH]; [constructor|].
  constructor; [intros ->; apply (M cDQ); [now left|cbn; tauto]|intros _ ->; apply (M cBSLASH); [now left|cbn; tauto]|].
  apply IH. intros x Hx. apply M. now right.
Qed.
(** The two shapes of the line, with either key. *)
Lemma shapes u u' : word u -> word u' -> forall h tail, is_header (u ++ y) h tail ->
  hl_key h <> None /\ exists h', is_header (u' ++ y) h' tail /\ hl_fields h' = hl_fields h /\ hl_key h' <> None.
Proof.
  intros W W' h tail H. destruct Hy as [r N|r h0 tail0 Hh0]; [exfalso; revert H; now apply colon_no_header|].
  assert (Hh := names_header _ _ _ _ _ _ (word_names u W) Hh0). destruct (is_header_fun _ _ _ _ _ Hh H) as [<- <-]. split; [discriminate|].
  eexists. split; [apply (names_header _ _ _ _ _ _ (word_names u' W') Hh0)|]. split; [reflexivity|discriminate].
Qed.
Lemma no_header_shape u u' : word u -> word u' -> no_header (u ++ y) -> no_header (u' ++ y).
Proof.
  intros W W' H. destruct Hy as [r N|r h0 tail0 Hh0].
  - destruct (colon_plain u' r W' N) as [P|(h & t & P & _)]; [exact P|]. exfalso. revert P. now apply colon_no_header.
  - exfalso. eapply header_not_none; [apply (names_header _ _ _ _ _ _ (word_names u W) Hh0)|exact H].
Qed.
Lemma item_text d ls v rest : item d t0 ls v rest -> exists v', changed v v' /\ item d t1 ls v' rest.
Proof.
  intros H. remember t0 as t eqn:Et. assert (O : open ([] : str)) by (intros r E; now destruct r).
  assert (Dash : forall t', cMINUS :: cSPACE :: t' = t0 -> X = [cMINUS; cSPACE] /\ t' = c ++ y).
  { intros t' E. symmetry in E. destruct (dash_cases c t' Hc D0 E) as (X0 & EX & ->). destruct HXd as [(E0 & _)|E0]; rewrite E0 in EX; [discriminate|].
    injection EX as <-. auto. }
  destruct H as [d ls|d t ls B|d t ls h tail v rest B U Hh Ha|d t ls m ls1 ms rest B U Hh Hm Hs|d t ls p B U Hh Pt].
  - exfalso. symmetry in Et. revert Et. apply not_dash; [exact Hc|exact D0].
  - exfalso. destruct (Dash _ Et) as (_ & ->). apply (not_blank [] c y Hc B).
  - exfalso. destruct (Dash _ Et) as (_ & ->). revert B. apply begins_word; [exact Hc|cbn; tauto].
  - destruct (Dash _ Et) as (EX & ->). destruct (member_key _ _ _ c c' y (S d) ls m ls1 Hc Hc' Hy Hm) as (v & -> & M').
    exists (TObj ((c', false, v) :: ms)). split; [apply changed_obj, members_here; right; exists c, c', false, v; repeat split; left; auto|].
    rewrite EX. cbn [app]. eapply im_object; eauto.
    + apply (not_blank [] c' y Hc').
    + destruct U as [U|(h & tail & Hh0 & F)]; [left; apply (unquoted_swap c c' Hc Hc' cCOLON [] y); auto; cbn; tauto|right].
      destruct (shapes c c' Hc Hc' _ _ Hh0) as (_ & h' & Hh' & Ef & _). exists h', tail. split; [exact Hh'|congruence].
    + intros h tail Hh0. now apply (shapes c' c Hc' Hc h tail).
  - destruct (Dash _ Et) as (EX & ->). destruct (token_swap c c' Hc Hc' [] y p O Pt) as (p' & Pt' & Hr).
    exists (TPrim p'). split; [left; constructor|].
    + destruct Hr as (x0 & x1 & y1 & y0 & E1 & E2 & H1 & H2). exists (X ++ x0), x1, y1, y0. split; [|auto]. rewrite <- app_assoc, <- E1, app_nil_r. reflexivity.
    + rewrite EX. cbn [app]. apply im_prim.
      * apply (not_blank [] c' y Hc').
      * intros U'. apply U. apply (unquoted_swap c' c Hc' Hc cCOLON [] y); auto; cbn; tauto.
      * destruct Hh as [Hn|(h & tail & Hh & K)]; [left; now apply (no_header_shape c c')|right].
        destruct (shapes c c' Hc Hc' _ _ Hh) as (K1 & h' & Hh' & Ef & _). exists h', tail. split; [exact Hh'|]. right. destruct K; [contradiction|congruence].
      * exact Pt'.
Qed.
Lemma data_row_key dl : any_delim dl -> data_row dl t1 -> data_row dl t0.
Proof.
  assert (O := HX). intros Hd [H|(a & b & E & Q & N)].
  - left. intros U. apply H. revert U. apply unquoted_swap; auto. cbn; tauto.
  - right. destruct (any_marks dl Hd) as (Hm & _).
    destruct (at_either _ _ _ _ _ _ (word_not dl c' Hc' Hm) E) as [(x' & EX & ->)|(y' & -> & Ey)].
    + exists a, (x' ++ c ++ y). split; [rewrite EX, <- app_assoc; reflexivity|]. auto.
    + exists (X ++ c ++ y'), b. split; [rewrite Ey, <- !app_assoc; reflexivity|]. split; [eapply (quoting_swap c' c Hc' Hc); [apply le_n|exact O|exact Q]|].
      intros U. apply N. revert U. apply unquoted_swap; auto. cbn; tauto.
Qed.

(** ** Lines *)
Variable no : nat.
Notation swapped := (swapped X c c' y no).
Lemma row_edit fs : forall a p p' b, R p p' -> (strict = true -> length (a ++ p :: b) = length fs) ->
  changed (TObj (row_members fs (a ++ p :: b))) (TObj (row_members fs (a ++ p' :: b))).
Proof.
  intros a p p' b Hr L. assert (H : changed_members (row_members fs (a ++ p :: b)) (row_members fs (a ++ p' :: b)) \/
    (length fs <= length a /\ row_members fs (a ++ p :: b) = row_members fs (a ++ p' :: b))).
  { clear L. revert a. induction fs as [|f fs IH]; intros a; [right; split; [cbn; lia|reflexivity]|].
    destruct a as [|q a]; cbn [app row_members].
    - left. apply members_here, same_name; [reflexivity|]. left. now constructor.
    - destruct (IH a) as [H|(H & E)]; [left; now apply members_later|right]. split; [cbn; lia|congruence]. }
  destruct H as [H|(H & E)]; [now apply changed_obj|right; right]. rewrite E. split; [|reflexivity].
  destruct strict; [|reflexivity]. specialize (L eq_refl). rewrite app_length in L. cbn in L. lia.
Qed.

Lemma rows_edit dl fs d n ls vs rest : any_delim dl -> rows dl fs d n ls vs rest -> forall ls', swapped ls ls' ->
  (exists rest', swapped rest rest' /\ rows dl fs d n ls' vs rest') \/ (exists vs', changed_list vs vs' /\ length vs' = length vs /\ rows dl fs d n ls' vs' rest).
Proof.
  intros Hdl. induction 1 as [ls|n ls E|n l ls ps vs rest D P L H IH]; intros ls' S.
  - left. exists ls'. split; [exact S|constructor].
  - left. exists ls'. split; [exact S|]. constructor. eapply (ends_swapped X c c' y no); [|exact S|exact E]. auto.
  - inversion S as [e r|l' a b S']; subst; clear S.
    + cbn [tl_depth tl_text] in *. destruct (prims_swap c c' Hc Hc' dl X y ps Hdl HX P) as (a & p & p' & b & -> & Hr & P').
      right. exists (TObj (row_members fs (a ++ p' :: b)) :: vs). split; [apply list_here, row_edit; auto|]. split; [reflexivity|].
      apply rw_more; auto. intros S. rewrite <- (L S), !app_length. reflexivity.
    + destruct (IH _ S') as [(rest' & Sr & H')|(vs' & Hv & Lv & H')].
      * left. exists rest'. split; [exact Sr|]. now apply rw_more.
      * right. eexists. split; [apply list_later; exact Hv|]. split; [cbn; congruence|]. now apply rw_more.
Qed.

Lemma read_edit :
  (forall d t ls m rest, member d t ls m rest -> forall ls', swapped ls ls' ->
     (exists rest', swapped rest rest' /\ member d t ls' m rest') \/ (exists m', changed_member m m' /\ member d t ls' m' rest)) /\
  (forall stop d ls ms rest, members stop d ls ms rest -> forall ls', swapped ls ls' ->
     (exists rest', swapped rest rest' /\ members stop d ls' ms rest') \/ (exists ms', changed_members ms ms' /\ members stop d ls' ms' rest)) /\
  (forall d h tail ls v rest, array d h tail ls v rest -> head_delim h -> forall ls', swapped ls ls' ->
     (exists rest', swapped rest rest' /\ array d h tail ls' v rest') \/ (exists v', changed v v' /\ array d h tail ls' v' rest)) /\
  (forall d n ls vs rest, items d n ls vs rest -> forall ls', swapped ls ls' ->
     (exists rest', swapped rest rest' /\ items d n ls' vs rest') \/ (exists vs', changed_list vs vs' /\ length vs' = length vs /\ items d n ls' vs' rest)) /\
  (forall d t ls v rest, item d t ls v rest -> forall ls', swapped ls ls' ->
     (exists rest', swapped rest rest' /\ item d t ls' v rest') \/ (exists v', changed v v' /\ item d t ls' v' rest)).
Proof.
  apply read_mutind.
  - (* mb_array *) intros d t ls h tail k q v rest Hh Hk Ha IH ls' S. destruct (IH (header_delim _ _ _ Hh) _ S) as [(rest' & Sr & H)|(v' & Ev & H)].
    + left. exists rest'. split; [exact Sr|]. eapply mb_array; eauto.
    + right. exists (k, q, v'). split; [now apply same_name|]. eapply mb_array; eauto.
  - (* mb_object *) intros d t ls k q r l ls1 ms rest P K B -> Dl Hm IH ls' S. assert (Dep : exists l' ls2, ls' = l' :: ls2 /\ tl_depth l' = tl_depth l).
    { inversion S; subst; eexists _, _; (split; [reflexivity|]); reflexivity. }
    destruct Dep as (l' & ls2 & -> & Ed). destruct (IH _ S) as [(rest' & Sr & H)|(ms' & Ev & H)]; rewrite <- Ed in H.
    + left. exists rest'. split; [exact Sr|]. eapply mb_object; eauto. lia.
    + right. exists (k, q, TObj ms'). split; [apply same_name; [reflexivity|now apply changed_obj]|]. eapply mb_object; eauto. lia.
  - (* mb_empty *) intros d t ls k q r P K B E ls' S. left. exists ls'. split; [exact S|]. eapply mb_empty; eauto. eapply (ends_swapped X c c' y no); [|exact S|exact E]. auto.
  - (* mb_prim *) intros d t ls k q r p P K B Pt ls' S. left. exists ls'. split; [exact S|]. eapply mb_prim; eauto.
  - (* ms_end *) intros stop d ls E ls' S. left. exists ls'. split; [exact S|]. constructor. eapply (ends_swapped X c c' y no); [|exact S|exact E].
    intros n e (H1 & H2). split; [exact H1|]. intros (H3 & H4). apply H2. split; [exact H3|]. revert H4. apply hyphen_swap; [exact Hc|exact D0].
  - (* ms_more *) intros stop d l ls m ls1 ms rest Dl Hn Hm IH1 Hs IH2 ls' S. inversion S as [e r|l' a b S']; subst; clear S.
    + cbn [tl_depth tl_text] in *. destruct (member_text e ls m ls1 Hm) as (m' & Em & Hm'). right. exists (m' :: ms).
      split; [now apply members_here|]. eapply ms_more; eauto. cbn [tl_text]. intros (H3 & H4). apply Hn. split; [exact H3|]. revert H4. apply hyphen_swap; [exact Hc'|exact D1].
    + destruct (IH1 _ S') as [(ls1' & S1 & H1)|(m' & Em & H1)].
      * destruct (IH2 _ S1) as [(rest' & Sr & H2)|(ms' & Ev & H2)].
        -- left. exists rest'. split; [exact Sr|]. eapply ms_more; eauto.
        -- right. exists (m :: ms'). split; [now apply members_later|]. eapply ms_more; eauto.
      * right. exists (m' :: ms). split; [now apply members_here|]. eapply ms_more; eauto.
  - (* ar_inline *) intros d h tail ls t ps T N P L Hh ls' S. left. exists ls'. split; [exact S|]. eapply ar_inline; eauto.
  - (* ar_table *) intros d h tail ls fs vs used rest B F N Hr E Hs Hh ls' S.
    destruct (rows_edit _ _ _ _ _ _ _ Hh Hr ls' S) as [(rest' & Sr & H)|(vs' & Ev & Lv & H)].
    + left. exists rest'. split; [exact Sr|]. destruct (rows_uses _ _ _ _ _ _ _ _ _ H) as (used' & Eu & _).
      eapply ar_table; eauto. intros St. destruct (Hs St) as (Hn & Hg & He). split; [exact Hn|]. split.
      * eapply (gap_nos blanks); [|exact Hg]. apply (used_nos X c c' y no ls ls' used used' rest rest' S E Eu). now apply (swapped_length X c c' y no).
      * eapply (ends_swapped X c c' y no); [|exact Sr|exact He]. cbn. intros n e (H1 & H2 & H3). split; [exact H1|]. split.
        -- intros H4. apply H2. revert H4. apply hyphen_swap; [exact Hc|exact D0].
        -- revert H3. now apply data_row_key.
    + right. eexists. split; [apply changed_arr; exact Ev|]. destruct (rows_uses _ _ _ _ _ _ _ _ _ H) as (used' & Eu & _).
      eapply ar_table; eauto. intros St. destruct (Hs St) as (Hn & Hg & He). split; [congruence|]. split; [|exact He].
      eapply (gap_nos blanks); [|exact Hg]. apply (used_nos X c c' y no ls ls' used used' rest rest S E Eu). reflexivity.
  - (* ar_list *) intros d h tail ls vs used rest B F Hi IH E Hs Hh ls' S. destruct (IH _ S) as [(rest' & Sr & H)|(vs' & Ev & Lv & H)].
    + left. exists rest'. split; [exact Sr|]. destruct (proj1 (proj2 (proj2 (proj2 (read_uses _ _ _)))) _ _ _ _ _ H) as (used' & Eu & _).
      eapply ar_list; eauto. intros St. destruct (Hs St) as (Hn & Hg & He). split; [exact Hn|]. split.
      * eapply (gap_nos blanks); [|exact Hg]. apply (used_nos X c c' y no ls ls' used used' rest rest' S E Eu). now apply (swapped_length X c c' y no).
      * eapply (ends_swapped X c c' y no); [|exact Sr|exact He]. cbn. intros n e (H1 & H2). split; [exact H1|]. revert H2. apply hyphen_swap; [exact Hc'|exact D1].
    + right. eexists. split; [apply changed_arr; exact Ev|]. destruct (proj1 (proj2 (proj2 (proj2 (read_uses _ _ _)))) _ _ _ _ _ H) as (used' & Eu & _).
      eapply ar_list; eauto. intros St. destruct (Hs St) as (Hn & Hg & He). split; [congruence|]. split; [|exact He].
      eapply (gap_nos blanks); [|exact Hg]. apply (used_nos X c c' y no ls ls' used used' rest rest S E Eu). reflexivity.
  - (* is_full *) intros d ls ls' S. left. exists ls'. split; [exact S|constructor].
  - (* is_end *) intros d n ls E ls' S. left. exists ls'. split; [exact S|]. constructor. eapply (ends_swapped X c c' y no); [|exact S|exact E].
    cbn. intros n' e (H1 & [H2|H2]); (split; [exact H1|]).
    + exfalso. revert H2. apply not_dash; [exact Hc'|exact D1].
    + right. revert H2. apply hyphen_swap; [exact Hc'|exact D1].
  - (* is_more *) intros d n l ls v ls1 vs rest Dl Hi IH1 Hs IH2 ls' S. inversion S as [e r|l' a b S']; subst; clear S.
    + cbn [tl_depth tl_text] in *. destruct (item_text _ _ _ _ Hi) as (v' & Ev & Hi'). right. exists (v' :: vs).
      split; [now apply list_here|]. split; [reflexivity|]. eapply is_more; eauto.
    + destruct (IH1 _ S') as [(ls1' & S1 & H1)|(v' & Em & H1)].
      * destruct (IH2 _ S1) as [(rest' & Sr & H2)|(vs' & Ev & Lv & H2)].
        -- left. exists rest'. split; [exact Sr|]. eapply is_more; eauto.
        -- right. exists (v :: vs'). split; [now apply list_later|]. split; [cbn; congruence|]. eapply is_more; eauto.
      * right. exists (v' :: vs). split; [now apply list_here|]. split; [reflexivity|]. eapply is_more; eauto.
  - (* im_bare *) intros d ls ls' S. left. exists ls'. split; [exact S|constructor].
  - intros d t ls B ls' S. left. exists ls'. split; [exact S|now constructor].
  - intros d t ls h tail v rest B U Hh Ha IH ls' S. destruct (IH (header_delim _ _ _ Hh) _ S) as [(rest' & Sr & H)|(v' & Ev & H)].
    + left. exists rest'. split; [exact Sr|]. eapply im_array; eauto.
    + right. exists v'. split; [exact Ev|]. eapply im_array; eauto.
  - intros d t ls m ls1 ms rest B U Hh Hm IH1 Hs IH2 ls' S. destruct (IH1 _ S) as [(ls1' & S1 & H1)|(m' & Em & H1)].
    + destruct (IH2 _ S1) as [(rest' & Sr & H2)|(ms' & Ev & H2)].
      * left. exists rest'. split; [exact Sr|]. eapply im_object; eauto.
      * right. exists (TObj (m :: ms')). split; [now apply changed_obj, members_later|]. eapply im_object; eauto.
    + right. exists (TObj (m' :: ms)). split; [now apply changed_obj, members_here|]. eapply im_object; eauto.
  - intros d t ls p B U Hh Pt ls' S. left. exists ls'. split; [exact S|]. now apply im_prim.
Qed.

Lemma begins_none u : word u -> ~ begins cLBRACK (X ++ u ++ y).
Proof.
  intros W. destruct HXd as [(-> & _)| ->]; cbn [app].
  - apply begins_word; [exact W|cbn; tauto].
  - intros B. apply begins_cons in B; [discriminate|reflexivity].
Qed.
Lemma has_colon_key : has_colon t0.
Proof.
  right. split.
  - destruct HXd as [(-> & _)| ->]; [cbn [app]; now apply not_quote|discriminate].
  - rewrite !in_app_iff. right. right. destruct Hy as [r _|r h tail H]; [now left|eapply header_colon; eauto].
Qed.
Lemma root_edit ls v rest : root_to parse_f64 strict blanks ls v rest -> forall ls', swapped ls ls' ->
  (exists rest', swapped rest rest' /\ root parse_f64 strict blanks ls' v) \/ (exists v', changed v v' /\ root parse_f64 strict blanks ls' v').
Proof.
  destruct read_edit as (Em & Es & Ea & _ & _).
  assert (N' : ~ (begins cLBRACK t1 /\ unquoted cCOLON t1) \/ no_header t1) by (left; intros (B & _); revert B; now apply begins_none).
  destruct 1 as [|l ls h tail v rest B Q H A|l p N C P|l ls m ls1 ms rest N M Hs]; intros ls' S.
  - inversion S.
  - inversion S as [e r|l' a b S']; subst; clear S.
    + exfalso. cbn [tl_text] in B. revert B. now apply begins_none.
    + destruct (Ea _ _ _ _ _ _ A (header_delim _ _ _ H) _ S') as [(rest' & Sr & H')|(v' & Ev & H')].
      * left. exists rest'. split; [exact Sr|]. eapply ro_array; eauto.
      * right. exists v'. split; [exact Ev|]. eapply ro_array; eauto.
  - inversion S as [e r|l' a b S']; subst; clear S; [|inversion S'].
    exfalso. apply C. cbn [tl_text]. apply has_colon_key.
  - inversion S as [e r|l' a b S']; subst; clear S.
    + cbn [tl_text] in *. destruct (member_text 0 ls m ls1 M) as (m' & Ed & M'). right. exists (TObj (m' :: ms)).
      split; [now apply changed_obj, members_here|]. eapply ro_object; cbn [tl_text]; eauto. right. eapply member_has_colon; eauto.
    + destruct (Em _ _ _ _ _ M _ S') as [(ls1' & S1 & H1)|(m' & Ed & H1)].
      * destruct (Es _ _ _ _ _ Hs _ S1) as [(rest' & Sr & H2)|(ms' & Ev & H2)].
        -- left. exists rest'. split; [exact Sr|]. eapply ro_object; eauto. right. eapply member_has_colon; eauto.
        -- right. exists (TObj (m :: ms')). split; [now apply changed_obj, members_later|]. eapply ro_object; eauto. right. eapply member_has_colon; eauto.
      * right. exists (TObj (m' :: ms)). split; [now apply changed_obj, members_here|]. eapply ro_object; eauto. right. eapply member_has_colon; eauto.
Qed.
End KeyEdit.
