(** Reading the first lines of a document. *)
From Coq Require Import Sorting.Sorted.
From Verif Require Import Chars Floats Json Shared Scanner Parser DecValidation Decoders EventBuilder Expand DecodeApi
  Lex Spec DecProps DecRel DecRelax Layout LayEnc LayFacts EncTotal WrittenProps JsonInd JsonEq Normalize EncPrim ParseProof Encoders EncodeApi RoundTrip SpecText SpecRead ReadLine ReadProof SpecError ErrProof SpecCut PropsUnread.

Local Open Scope nat_scope.

(** ** Line numbers grow *)
Definition asc (ls : list tline) : Prop := StronglySorted (fun a b => tl_no a < tl_no b) ls.
Lemma asc_suffix a b : asc (a ++ b) -> asc b.
Proof. induction a as [|x a IH]; auto. cbn. intros H. inversion H; auto. Qed.
Lemma scans_from strict size n raws ls bs : scans strict size n raws ls bs -> Forall (fun l => n <= tl_no l) ls.
Proof.
  induction 1 as [n|n raw raws ls bs B Sc IH|n k t d raws ls bs B N D T Sc IH]; [constructor| |].
  - eapply Forall_impl; [|exact IH]. cbn. lia.
  - constructor; [cbn; lia|]. eapply Forall_impl; [|exact IH]. cbn. lia.
Qed.
Lemma scans_asc strict size n raws ls bs : scans strict size n raws ls bs -> asc ls.
Proof.
  induction 1 as [n|n raw raws ls bs B Sc IH|n k t d raws ls bs B N D T Sc IH]; [constructor|auto|].
  constructor; [exact IH|]. apply scans_from in Sc. eapply Forall_impl; [|exact Sc]. cbn. lia.
Qed.
Lemma asc_last p b q b' : asc (p ++ b :: q) -> forall z, p ++ b :: q = z ++ [b'] -> tl_no b <= tl_no b'.
Proof.
  intros H z E. apply asc_suffix in H. destruct q as [|x q] using rev_ind.
  - apply app_inj_tail in E as [_ <-]. lia.
  - rewrite app_comm_cons, app_assoc in E. apply app_inj_tail in E as [_ <-].
    inversion H as [|? ? _ F]; subst. rewrite Forall_app in F. destruct F as [_ F]. inversion F; subst. lia.
Qed.
Lemma gap_prefix blanks p q : asc (p ++ q) -> no_gap blanks (p ++ q) -> no_gap blanks p.
Proof.
  intros A H a b m z E E' n Hn [L1 L2]. destruct q as [|x q] using rev_ind.
  - rewrite app_nil_r in H. apply (H a b m z E E' n Hn). auto.
  - clear IHq. rewrite app_assoc in *. apply (H a x (m ++ q ++ [x]) (p ++ q)) with (n := n); auto.
    + rewrite E. cbn. now rewrite app_assoc.
    + split; auto. rewrite E' in A. rewrite <- !app_assoc in A. cbn in A.
      pose proof (asc_last z b (q ++ [x]) x A (z ++ b :: q)) as L. rewrite <- app_assoc in L. cbn in L. specialize (L eq_refl). lia.
Qed.

Lemma split_cases {A} (l : A) ls p q : l :: ls = p ++ q -> (p = [] /\ q = l :: ls) \/ exists p', p = l :: p' /\ ls = p' ++ q.
Proof. destruct p as [|x p]; cbn; intros E; [left; auto|]. injection E as -> ->. right; eauto. Qed.

Lemma app_split {A} (p q u r : list A) : p ++ q = u ++ r -> length r < length q -> exists z, u = p ++ z.
Proof.
  revert u. induction p as [|x p IH]; intros u E L; [exists u; reflexivity|]. destruct u as [|y u].
  - exfalso. cbn in E. apply (f_equal (@length A)) in E. cbn in E. rewrite app_length in E. lia.
  - cbn in E. injection E as -> E. destruct (IH u E L) as (z & ->). exists z. reflexivity.
Qed.
Lemma app_split_le {A} (p q u r : list A) : p ++ q = u ++ r -> length q <= length r -> exists s, r = s ++ q /\ p = u ++ s.
Proof.
  revert p. induction u as [|x u IH]; intros p E L; [exists p; split; [now rewrite E|reflexivity]|]. destruct p as [|y p].
  - exfalso. cbn in E. apply (f_equal (@length A)) in E. cbn in E. rewrite app_length in E. lia.
  - cbn in E. injection E as -> E. destruct (IH p E L) as (z & -> & ->). exists z. split; reflexivity.
Qed.
Lemma asc_prefix a b : asc (a ++ b) -> asc a.
Proof.
  induction a as [|x a IH]; [constructor|]. cbn. intros H. inversion H as [|? ? H1 H2]; subst. constructor; [apply IH; exact H1|].
  exact (proj1 (proj1 (Forall_app _ _ _) H2)).
Qed.

Section Cut.
Variable double : str -> option f64.
Variables (strict : bool) (blanks : list nat).

Notation tj := tree_json.
Definition mj (m : str * bool * tree) : str * json := (fst (fst m), tj (snd m)).

(** [shortened], for what is read. *)
Inductive tshort : tree -> tree -> Prop :=
| ts_members a b : b <> [] -> tshort (TObj a) (TObj (a ++ b))
| ts_member a k w v b : tshort w v -> tshort (TObj (a ++ [(k, w)])) (TObj (a ++ (k, v) :: b))
| ts_items n a b : strict = false -> b <> [] -> tshort (TArr n a) (TArr n (a ++ b))
| ts_item n a w v b : (strict = true -> b = []) -> tshort w v -> tshort (TArr n (a ++ [w])) (TArr n (a ++ v :: b)).
Lemma tshort_json w v : tshort w v -> shortened strict (tj w) (tj v).
Proof.
  induction 1 as [a b N|a k w v b _ IH|n a b S N|n a w v b S _ IH]; cbn [tree_json]; rewrite !map_app; cbn [map fst snd].
  - apply sh_members. destruct b; [congruence|discriminate].
  - apply sh_member. exact IH.
  - apply sh_items; [exact S|]. destruct b; [congruence|discriminate].
  - apply sh_item; [|exact IH]. intros X. now rewrite (S X).
Qed.

Definition cut_member d t ls m rest : Prop := asc ls -> forall bs p q, incl bs blanks -> ls = p ++ q ->
  (exists s, rest = s ++ q /\ member double strict bs d t p m s) \/
  (exists v, tshort v (snd m) /\ member double strict bs d t p (fst m, v) []) \/
  (strict = true /\ exists e, missing e /\ member_fails double strict bs d t p e).
Definition cut_members stop d ls ms rest : Prop := asc ls -> forall bs p q, incl bs blanks -> ls = p ++ q ->
  (exists s, rest = s ++ q /\ members double strict bs stop d p ms s) \/
  (exists ms', tshort (TObj ms') (TObj ms) /\ members double strict bs stop d p ms' []) \/
  (strict = true /\ exists e, missing e /\ members_fail double strict bs stop d p e).
Definition cut_array d h tail ls v rest : Prop := asc ls -> forall bs p q, incl bs blanks -> ls = p ++ q ->
  (exists s, rest = s ++ q /\ array double strict bs d h tail p v s) \/
  (exists w, tshort w v /\ array double strict bs d h tail p w []) \/
  (strict = true /\ exists e, missing e /\ array_fails double strict bs d h tail p e).
(** Fewer items, or as many and the last one is shortened. *)
Definition fewer (vs' vs : list tree) : Prop :=
  (exists more, vs = vs' ++ more /\ more <> []) \/
  (exists a w v b, vs' = a ++ [w] /\ vs = a ++ v :: b /\ tshort w v).
Definition cut_items d n ls vs rest : Prop := asc ls -> forall bs p q, incl bs blanks -> ls = p ++ q ->
  (exists s, rest = s ++ q /\ items double strict bs d n p vs s) \/
  (exists vs', fewer vs' vs /\ items double strict bs d n p vs' []) \/
  (strict = true /\ exists e, missing e /\ items_fail double strict bs d n p e).
Definition cut_item d t ls v rest : Prop := asc ls -> forall bs p q, incl bs blanks -> ls = p ++ q ->
  (exists s, rest = s ++ q /\ item double strict bs d t p v s) \/
  (exists w, tshort w v /\ item double strict bs d t p w []) \/
  (strict = true /\ exists e, missing e /\ item_fails double strict bs d t p e).

Lemma ends_nil P : ends P []. Proof. intros l r E. discriminate. Qed.
Lemma tshort_cons x a b : tshort (TObj a) (TObj b) -> tshort (TObj (x :: a)) (TObj (x :: b)).
Proof.
  intros H. inversion H as [a0 b0 N E1 E2|a0 k w v b0 S E1 E2| |]; subst.
  - apply (ts_members (x :: a) b0 N).
  - apply (ts_member (x :: a0) k w v b0 S).
Qed.
Lemma fewer_cons x a b : fewer a b -> fewer (x :: a) (x :: b).
Proof.
  intros [(more & -> & N)|(a0 & w & v & b0 & -> & -> & S)]; [left; exists more; auto|right].
  exists (x :: a0), w, v, b0. auto.
Qed.

Lemma rows_cut dl fs d n ls vs rest : rows double strict dl fs d n ls vs rest -> forall p q, ls = p ++ q ->
  (exists s, rest = s ++ q /\ rows double strict dl fs d n p vs s) \/
  (exists vs' more, vs = vs' ++ more /\ more <> [] /\ length vs' = length p /\ rows double strict dl fs d n p vs' []).
Proof.
  induction 1 as [ls|n ls E|n l ls ps vs rest D P S R IH]; intros p q Eq.
  - left. exists p. split; [exact Eq|constructor].
  - left. exists p. split; [exact Eq|]. constructor. rewrite Eq in E. eapply ends_prefix; eauto.
  - apply split_cases in Eq as [[-> ->]|(p' & -> & Eq)].
    + right. eexists [], _. split; [reflexivity|]. split; [discriminate|]. split; [reflexivity|]. apply rw_end, ends_nil.
    + destruct (IH p' q Eq) as [(s & -> & H)|(vs' & more & -> & N & L & H)].
      * left. exists s. split; [reflexivity|]. now constructor.
      * right. eexists (_ :: vs'), more. split; [reflexivity|]. split; [exact N|]. split; [cbn; now rewrite L|]. now constructor.
Qed.

(** A table that has lost lines has lost rows. *)
Lemma table_cut d h tail ls fs vs used rest : blank tail -> hl_fields h = Some fs -> fs <> [] ->
  rows double strict (hl_delimiter h) fs (S d) (hl_length h) ls vs rest -> ls = used ++ rest ->
  (strict = true -> N.of_nat (length vs) = hl_length h /\ no_gap blanks used /\
     ends (fun l => tl_depth l = S d /\ ~ hyphen (tl_text l) /\ data_row (hl_delimiter h) (tl_text l)) rest) ->
  forall bs p q, incl bs blanks -> ls = p ++ q ->
  (exists s, rest = s ++ q /\ array double strict bs d h tail p (TArr (hl_length h) vs) s) \/
  (strict = false /\ exists w, tshort w (TArr (hl_length h) vs) /\ array double strict bs d h tail p w []) \/
  (strict = true /\ (N.of_nat (length p) < hl_length h)%N /\
   array_fails double strict bs d h tail p (ECount CRows (hl_length h) (N.of_nat (length p)))).
Proof.
  intros Hb Hf Hn R Eu Hs bs p q I Eq. destruct (rows_cut _ _ _ _ _ _ _ R p q Eq) as [(s & Es & H)|(vs' & more & Ev & N & L & H)].
  - left. exists s. split; [exact Es|]. subst rest. rewrite Eq, app_assoc in Eu. apply app_inv_tail in Eu. subst p.
    eapply ar_table; eauto. intros S. destruct (Hs S) as (A & B & C). split; [exact A|]. split; [eapply gap_fewer; eauto|].
    eapply ends_prefix; eauto.
  - right. destruct strict eqn:S; [right|left]; split; auto.
    + destruct (Hs eq_refl) as (A & _ & _). assert (X : (N.of_nat (length p) < hl_length h)%N).
      { rewrite <- A, Ev, app_length, L. destruct more; [congruence|]. cbn [length]. lia. }
      split; [exact X|]. rewrite <- L in *. eapply af_rows_count; eauto. lia.
    + exists (TArr (hl_length h) vs'). split.
      * rewrite Ev. apply ts_items; [exact S|exact N].
      * eapply ar_table with (used := p); eauto; [now rewrite app_nil_r|discriminate].
Qed.

Lemma read_cut :
  (forall d t ls m rest, member double strict blanks d t ls m rest -> cut_member d t ls m rest) /\
  (forall stop d ls ms rest, members double strict blanks stop d ls ms rest -> cut_members stop d ls ms rest) /\
  (forall d h tail ls v rest, array double strict blanks d h tail ls v rest -> cut_array d h tail ls v rest) /\
  (forall d n ls vs rest, items double strict blanks d n ls vs rest -> cut_items d n ls vs rest) /\
  (forall d t ls v rest, item double strict blanks d t ls v rest -> cut_item d t ls v rest).
Proof.
  destruct (read_uses double strict blanks) as (Um & Us & Ua & Ui & Ut).
  assert (Suf : forall ls rest n, uses ls rest n -> asc ls -> asc rest) by (intros ls rest n (u & -> & _) A; eapply asc_suffix; eauto).
  apply read_mutind.
  - (* array under a key *)
    intros d t ls h tail k q v rest Hh Hk _ IH A bs p q0 I E. destruct (IH A bs p q0 I E) as [(s & -> & H)|[(w & Sh & H)|(S & e & M & H)]].
    + left. exists s. split; [reflexivity|]. econstructor; eauto.
    + right. left. exists w. split; [exact Sh|]. econstructor; eauto.
    + right. right. split; [exact S|]. exists e. split; [exact M|]. eapply mf_array; eauto. congruence.
  - (* object *)
    intros d t ls k q r l ls' ms rest Hp Hk Hb -> Hd Hm IH A bs p q0 I E.
    apply split_cases in E as [[-> ->]|(p' & -> & E)].
    + right. left. exists (TObj []). split.
      * cbn [snd]. apply (ts_members []). destruct ms; [|discriminate].
        inversion Hm as [? ? ? En|]; subst. exfalso. apply (En l ls' eq_refl). split; [reflexivity|]. intros [X _]. discriminate.
      * eapply mb_empty; eauto. apply ends_nil.
    + destruct (IH A bs (l :: p') q0 I) as [(s & -> & H)|[(ms' & Sh & H)|(S & e & M & H)]]; [cbn; now rewrite E|..].
      * left. exists s. split; [reflexivity|]. eapply mb_object; eauto.
      * right. left. exists (TObj ms'). split; [exact Sh|]. eapply mb_object; eauto.
      * right. right. split; [exact S|]. exists e. split; [exact M|]. eapply mf_object; eauto.
  - (* empty object *)
    intros d t ls k q r Hp Hk Hb He A bs p q0 I ->. left. exists p. split; [reflexivity|]. eapply mb_empty; eauto. eapply ends_prefix; eauto.
  - (* primitive *)
    intros d t ls k q r pr Hp Hk Hb Hpr A bs p q0 I ->. left. exists p. split; [reflexivity|]. eapply mb_prim; eauto.
  - (* no member *)
    intros stop d ls He A bs p q I ->. left. exists p. split; [reflexivity|]. constructor. eapply ends_prefix; eauto.
  - (* members *)
    intros stop d l ls m ls1 ms rest D N Hm IH1 Hms IH2 A bs p q I E. apply split_cases in E as [[-> ->]|(p' & -> & E)].
    + right. left. exists []. split; [apply (ts_members []); discriminate|]. constructor. apply ends_nil.
    + assert (A1 : asc ls) by (inversion A; auto). assert (A2 : asc ls1) by eauto.
      destruct (IH1 A1 bs p' q I E) as [(s & Es & H)|[(v & Sh & H)|(S & e & M & H)]].
      * destruct (IH2 A2 bs s q I Es) as [(s' & -> & H')|[(ms' & Sh & H')|(S & e & M & H')]].
        -- left. exists s'. split; [reflexivity|]. econstructor; eauto.
        -- right. left. exists (m :: ms'). split; [now apply tshort_cons|]. econstructor; eauto.
        -- right. right. split; [exact S|]. exists e. split; [exact M|]. eapply msf_later; eauto.
      * right. left. exists [(fst m, v)]. split.
        -- destruct m as [[k q0] v0]. apply (ts_member [] (k, q0) v v0 ms Sh).
        -- econstructor; eauto. constructor. apply ends_nil.
      * right. right. split; [exact S|]. exists e. split; [exact M|]. eapply msf_here; eauto.
  - (* inline array *)
    intros d h tail ls t ps Ht Hn Hp Hs A bs p q I ->. left. exists p. split; [reflexivity|]. econstructor; eauto.
  - (* table *)
    intros d h tail ls fs vs used rest Hb Hf Hn R Eu Hs A bs p q I E.
    destruct (table_cut _ _ _ _ _ _ _ _ Hb Hf Hn R Eu Hs bs p q I E) as [H|[(_ & H)|(S & L & H)]]; auto.
    right. right. split; [exact S|]. eexists. split; [|exact H]. eexists _, _, _. split; [reflexivity|]. auto.
  - (* list *)
    intros d h tail ls vs used rest Hb Hf Hi IH Eu Hs A bs p q I E. assert (Ep : p ++ q = used ++ rest) by congruence.
    destruct (le_lt_dec (length q) (length rest)) as [Le|Lt].
    { destruct (app_split_le _ _ _ _ Ep Le) as (s & -> & ->). left. exists s. split; [reflexivity|].
      destruct (read_frames double strict blanks) as (_ & _ & Fa & _ & _). destruct (Fa d h tail ls (TArr (hl_length h) vs) (s ++ q)) as (u & E1 & Hu).
      - eapply ar_list; eauto.
      - rewrite Eu in E1. apply app_inv_tail in E1 as <-. now apply (Hu bs s q). }
    destruct (app_split _ _ _ _ Ep Lt) as (z & Ez).
    assert (Gp : strict = true -> no_gap bs p).
    { intros S. destruct (Hs S) as (_ & C & _). eapply gap_fewer; [exact I|]. subst used. apply (gap_prefix _ p z); [|exact C].
      rewrite Eu in A. eapply asc_prefix; eauto. }
    destruct (IH A bs p q I E) as [(s & Es & H)|[(vs' & F & H)|(S & e & M & H)]].
    + exfalso. rewrite Es, app_length in Lt. lia.
    + right. destruct (N.eq_dec (N.of_nat (length vs')) (hl_length h)) as [Ee|Ne].
      * assert (L0 : strict = true -> length vs' = length vs) by (intros S; destruct (Hs S) as (B & _ & _); lia).
        left. exists (TArr (hl_length h) vs'). split.
        -- destruct F as [(more & -> & N)|(a & w & v & b & -> & -> & Sh)].
           ++ apply ts_items; [|exact N]. destruct strict; [|reflexivity]. exfalso.
              specialize (L0 eq_refl). rewrite app_length in L0. destruct more; [congruence|]. cbn in L0. lia.
           ++ apply ts_item; [|exact Sh]. intros S. specialize (L0 S). rewrite !app_length in L0. cbn in L0. destruct b; [reflexivity|]. cbn in L0. lia.
        -- eapply ar_list with (used := p); eauto; [now rewrite app_nil_r|]. intros S. split; [exact Ee|]. split; [auto|apply ends_nil].
      * destruct (Bool.bool_dec strict true) as [S|S].
        -- right. split; [exact S|]. destruct (Hs S) as (L & _ & _). eexists. split; [|eapply af_items_count; eauto].
           exists CItems, (hl_length h), (N.of_nat (length vs')). split; [reflexivity|]. split; [now left|]. rewrite <- L in *.
           destruct F as [(more & -> & _)|(a & w & v & b & -> & -> & _)]; rewrite ?app_length in *; cbn [length] in *; lia.
        -- apply Bool.not_true_is_false in S. left. exists (TArr (hl_length h) vs'). split.
           ++ destruct F as [(more & -> & N)|(a & w & v & b & -> & -> & Sh)].
              ** apply ts_items; [exact S|exact N].
              ** apply ts_item; [congruence|exact Sh].
           ++ eapply ar_list with (used := p); eauto; [now rewrite app_nil_r|congruence].
    + right. right. split; [exact S|]. exists e. split; [exact M|]. eapply af_item; eauto.
  - (* all items there *)
    intros d ls A bs p q I ->. left. exists p. split; [reflexivity|constructor].
  - intros d n ls He A bs p q I ->. left. exists p. split; [reflexivity|]. constructor. eapply ends_prefix; eauto.
  - (* items *)
    intros d n l ls v ls1 vs rest Hd Hi IH1 Hs IH2 A bs p q I E. apply split_cases in E as [[-> ->]|(p' & -> & E)].
    + right. left. exists []. split; [|constructor; apply ends_nil]. left. exists (v :: vs). split; [reflexivity|discriminate].
    + assert (A1 : asc ls) by (inversion A; auto). assert (A2 : asc ls1) by eauto.
      destruct (IH1 A1 bs p' q I E) as [(s & Es & H)|[(w & Sh & H)|(S & e & M & H)]].
      * destruct (IH2 A2 bs s q I Es) as [(s' & -> & H')|[(vs' & F & H')|(S & e & M & H')]].
        -- left. exists s'. split; [reflexivity|]. econstructor; eauto.
        -- right. left. exists (v :: vs'). split; [now apply fewer_cons|]. econstructor; eauto.
        -- right. right. split; [exact S|]. exists e. split; [exact M|]. eapply if_later; eauto.
      * right. left. exists [w]. split.
        -- right. exists [], w, v, vs. auto.
        -- econstructor; eauto. constructor. apply ends_nil.
      * right. right. split; [exact S|]. exists e. split; [exact M|]. eapply if_here; eauto.
  - intros. intros A bs p q I ->. left. exists p. split; [reflexivity|constructor].
  - intros. intros A bs p q I ->. left. exists p. split; [reflexivity|]. now constructor.
  - (* item: array *)
    intros d t ls h tail v rest Hb Hu Hh _ IH A bs p q0 I E. destruct (IH A bs p q0 I E) as [(s & -> & H)|[(w & Sh & H)|(S & e & M & H)]].
    + left. exists s. split; [reflexivity|]. eapply im_array; eauto.
    + right. left. exists w. split; [exact Sh|]. eapply im_array; eauto.
    + right. right. split; [exact S|]. exists e. split; [exact M|]. eapply itf_array; eauto.
  - (* item: object *)
    intros d t ls m ls1 ms rest Hb Hu Hk Hm IH1 Hs IH2 A bs p q I E. assert (A2 : asc ls1) by eauto.
    destruct (IH1 A bs p q I E) as [(s & Es & H)|[(v & Sh & H)|(S & e & M & H)]].
    + destruct (IH2 A2 bs s q I Es) as [(s' & -> & H')|[(ms' & Sh & H')|(S & e & M & H')]].
      * left. exists s'. split; [reflexivity|]. eapply im_object; eauto.
      * right. left. exists (TObj (m :: ms')). split; [apply (tshort_cons m _ _ Sh)|]. eapply im_object; eauto.
      * right. right. split; [exact S|]. exists e. split; [exact M|]. eapply itf_later; eauto.
    + right. left. exists (TObj [(fst m, v)]). split.
      * destruct m as [[k q0] v0]. apply (ts_member [] (k, q0) v v0 ms Sh).
      * eapply im_object; eauto. constructor. apply ends_nil.
    + right. right. split; [exact S|]. exists e. split; [exact M|]. eapply itf_member; eauto.
  - intros d t ls x Hb Hu Hh Hp A bs p q I ->. left. exists p. split; [reflexivity|]. now apply im_prim.
Qed.

(** ** Whole documents, with the lines that are not read *)
Inductive root_to : list tline -> tree -> list tline -> Prop :=
| rt_empty : root_to [] (TObj []) []
| rt_array l ls h tail v rest : begins cLBRACK (tl_text l) -> unquoted cCOLON (tl_text l) ->
    is_header (tl_text l) h tail -> array double strict blanks 0 h tail ls v rest -> root_to (l :: ls) v rest
| rt_prim l p : ~ (begins cLBRACK (tl_text l) /\ unquoted cCOLON (tl_text l)) \/ no_header (tl_text l) ->
    ~ has_colon (tl_text l) -> prim_text double (tl_text l) p -> root_to [l] (TPrim p) []
| rt_object l ls m ls1 ms rest :
    ~ (begins cLBRACK (tl_text l) /\ unquoted cCOLON (tl_text l)) \/ no_header (tl_text l) ->
    member double strict blanks 0 (tl_text l) ls m ls1 -> members double strict blanks false 0 ls1 ms rest ->
    root_to (l :: ls) (TObj (m :: ms)) rest.

Lemma root_root_to ls v : root double strict blanks ls v -> exists rest, root_to ls v rest.
Proof.
  destruct 1 as [|l ls h tail v rest B Q H A|l p N C P|l ls m ls1 ms rest N C M R]; eexists.
  - apply rt_empty.
  - eapply rt_array; eauto.
  - apply rt_prim; eauto.
  - eapply rt_object; eauto.
Qed.
(** The lines read, with any number of the others. *)
Lemma root_keep ls v rest : root_to ls v rest -> exists used, ls = used ++ rest /\
  forall bs s q, incl bs blanks -> rest = s ++ q -> root double strict bs (used ++ s) v.
Proof.
  destruct (read_frames double strict blanks) as (Fm & Fs & Fa & _ & _).
  destruct 1 as [|l ls h tail v rest B Q H A|l p N C P|l ls m ls1 ms rest N M R].
  - exists []. split; [reflexivity|]. intros bs s q I E. symmetry in E. apply app_eq_nil in E as [-> _]. constructor.
  - destruct (Fa _ _ _ _ _ _ A) as (u & -> & Hu). exists (l :: u). split; [reflexivity|]. intros bs s q I E. cbn. eapply ro_array; eauto.
  - exists [l]. split; [reflexivity|]. intros bs s q I E. symmetry in E. apply app_eq_nil in E as [-> _]. now constructor.
  - pose proof (member_has_colon _ _ _ _ _ _ _ _ M) as Hc. destruct (Fm _ _ _ _ _ M) as (u & -> & Hu). destruct (Fs _ _ _ _ _ R) as (w & -> & Hw).
    exists (l :: u ++ w). split; [cbn; now rewrite app_assoc|]. intros bs s q I E. cbn. rewrite <- app_assoc.
    eapply ro_object; [exact N|right; exact Hc| |apply (Hw bs s q I E)]. apply (Hu bs (w ++ s) q I). rewrite E. apply app_assoc.
Qed.

Lemma root_cut ls v rest : root_to ls v rest -> asc ls -> forall bs p q, incl bs blanks -> ls = p ++ q ->
  (exists s, rest = s ++ q /\ root double strict bs p v) \/
  p = [] \/
  (exists w, tshort w v /\ root double strict bs p w) \/
  (strict = true /\ exists e, missing e /\ root_fails double strict bs p e).
Proof.
  destruct read_cut as (Cm & Cs & Ca & _ & _). destruct (read_uses double strict blanks) as (Um & _).
  destruct 1 as [|l ls h tail v rest B Q H R|l x N C P|l ls m ls1 ms rest N M R]; intros A bs p q I E.
  - symmetry in E. apply app_eq_nil in E as [-> ->]. now right; left.
  - apply split_cases in E as [[-> ->]|(p' & -> & E)]; [now right; left|]. assert (A1 : asc ls) by (inversion A; auto).
    destruct (Ca _ _ _ _ _ _ R A1 bs p' q I E) as [(s & -> & H')|[(w & Sh & H')|(S & e & Mi & H')]].
    + left. exists s. split; [reflexivity|]. eapply ro_array; eauto.
    + right. right. left. exists w. split; [exact Sh|]. eapply ro_array; eauto.
    + right. right. right. split; [exact S|]. exists e. split; [exact Mi|]. eapply rtf_array; eauto.
  - apply split_cases in E as [[-> ->]|(p' & -> & E)]; [now right; left|]. symmetry in E. apply app_eq_nil in E as [-> ->].
    left. exists []. split; [reflexivity|]. now constructor.
  - apply split_cases in E as [[-> ->]|(p' & -> & E)]; [now right; left|]. assert (A1 : asc ls) by (inversion A; auto).
    pose proof (member_has_colon _ _ _ _ _ _ _ _ M) as Hc.
    destruct (Cm _ _ _ _ _ M A1 bs p' q I E) as [(s & Es & H)|[(w & Sh & H)|(S & e & Mi & H)]].
    + assert (A2 : asc ls1). { destruct (Um _ _ _ _ _ M) as (u & -> & _). eapply asc_suffix; eauto. }
      destruct (Cs _ _ _ _ _ R A2 bs s q I Es) as [(s' & -> & H')|[(ms' & Sh & H')|(S & e & Mi & H')]].
      * left. exists s'. split; [reflexivity|]. eapply ro_object; eauto.
      * right. right. left. exists (TObj (m :: ms')). split; [apply (tshort_cons m _ _ Sh)|]. eapply ro_object; eauto.
      * right. right. right. split; [exact S|]. exists e. split; [exact Mi|]. eapply rtf_later; eauto.
    + right. right. left. exists (TObj [(fst m, w)]). split.
      * destruct m as [[k q0] v0]. apply (ts_member [] (k, q0) w v0 ms Sh).
      * eapply ro_object; eauto. constructor. apply ends_nil.
    + right. right. right. split; [exact S|]. exists e. split; [exact Mi|]. eapply rtf_here; eauto.
Qed.

(** A table at the root. *)
Lemma root_table_cut l ls v rest h tail fs : root_to (l :: ls) v rest -> begins cLBRACK (tl_text l) -> unquoted cCOLON (tl_text l) ->
  is_header (tl_text l) h tail -> hl_fields h = Some fs -> fs <> [] -> strict = true ->
  forall bs p q, incl bs blanks -> ls = p ++ q -> length rest < length q ->
  (N.of_nat (length p) < hl_length h)%N /\
  root_fails double strict bs (l :: p) (ECount CRows (hl_length h) (N.of_nat (length p))).
Proof.
  intros R B Q H Hf Hn S bs p q I E Lt. inversion R as [|? ? h' tail' ? ? B' Q' H' A|? x N C P|? ? m ls1 ms ? N M Ms]; subst.
  - destruct (is_header_fun _ _ _ _ _ H H') as [<- <-].
    inversion A as [? ? ? ? t ps Ht Hnb Hp Hs|? ? ? ? fs' vs used ? Hb Hf' Hn' Rw Eu Hs|? ? ? ? vs used ? Hb Hf' Hi Eu Hs]; subst.
    + exfalso. rewrite app_length in Lt. lia.
    + assert (fs' = fs) by congruence. subst fs'.
      destruct (table_cut 0 h tail (p ++ q) fs vs used rest Hb Hf Hn Rw Eu Hs bs p q I eq_refl) as [(s & -> & _)|[(F & _)|(_ & L & X)]].
      * exfalso. rewrite app_length in Lt. lia.
      * congruence.
      * split; [exact L|]. eapply rtf_array; eauto.
    + exfalso. destruct Hf' as [Hf'|Hf']; congruence.
  - exfalso. destruct N as [N|N]; [apply N; auto|]. apply header_none in N. rewrite (header_some _ _ _ H) in N. discriminate.
  - exfalso. destruct N as [N|N]; [apply N; auto|]. apply header_none in N. rewrite (header_some _ _ _ H) in N. discriminate.
Qed.
End Cut.

(** ** The first lines of a text *)
Lemma scans_firstn strict size n raws ls bs : scans strict size n raws ls bs -> forall m, m <= length ls ->
  exists j, j <= length raws /\ forall k, exists c bs', scans strict size n (firstn k raws) (firstn c ls) bs' /\ incl bs' bs /\
    c <= length ls /\ c <= k /\ (k < j <-> c < m).
Proof.
  induction 1 as [n|n raw raws ls bs B Sc IH|n k0 t d raws ls bs B N D T Sc IH]; intros m Hm.
  - exists 0. split; [apply le_n|]. intros k. exists 0, []. rewrite firstn_nil. cbn in *. repeat split; try lia; [constructor|apply incl_refl].
  - destruct (IH m Hm) as (j & Lj & H). exists (if m =? 0 then 0 else S j). split; [destruct (m =? 0); cbn; lia|].
    intros [|k].
    + exists 0, []. cbn [firstn]. split; [constructor|]. split; [intros x []|]. destruct (Nat.eqb_spec m 0); cbn; repeat split; lia.
    + destruct (H k) as (c & bs' & H1 & H2 & H3 & H4 & H5). exists c, (n :: bs'). cbn [firstn]. split; [now constructor|].
      split; [intros x [->|Hx]; [now left|right; auto]|]. destruct (Nat.eqb_spec m 0); repeat split; lia.
  - destruct m as [|m].
    + exists 0. split; [apply Nat.le_0_l|]. destruct (IH 0 (Nat.le_0_l _)) as (j & Lj & H). intros [|k].
      * exists 0, []. cbn [firstn]. split; [constructor|]. split; [intros x []|]. repeat split; lia.
      * destruct (H k) as (c & bs' & H1 & H2 & H3 & H4 & H5). exists (S c), bs'. cbn [firstn length]. split; [now constructor|].
        split; [exact H2|]. repeat split; lia.
    + cbn [length] in Hm. destruct (IH m ltac:(lia)) as (j & Lj & H). exists (S j). split; [cbn; lia|]. intros [|k].
      * exists 0, []. cbn [firstn length]. split; [constructor|]. split; [intros x []|]. repeat split; lia.
      * destruct (H k) as (c & bs' & H1 & H2 & H3 & H4 & H5). exists (S c), bs'. cbn [firstn length]. split; [now constructor|].
        split; [exact H2|]. repeat split; lia.
Qed.
Lemma scans_no_text strict size n raws ls bs : scans strict size n raws ls bs -> ls = [] -> Forall blank raws.
Proof. induction 1; intros E; [constructor| |discriminate]. constructor; auto. Qed.

Lemma lines_ok raws d ls bs v :
  rd_expand (resolve_decode_options d) = EPOff ->
  scans (rd_strict (resolve_decode_options d)) (rd_indent (resolve_decode_options d)) 1 raws ls bs ->
  root parse_f64 (rd_strict (resolve_decode_options d)) bs ls v ->
  try_decode_from_lines raws d = Ok (tree_json v).
Proof.
  intros He Sc R. unfold try_decode_from_lines. cbv zeta. rewrite He.
  rewrite (proj2 (stream_spec raws _ _ (tree_events v))) by eauto 7. cbn [bind].
  destruct (describes_build _ _ _ (tree_describes v)) as (n & En & Ev). rewrite En. cbn [bind]. congruence.
Qed.
Lemma lines_err raws d ls bs e :
  scans (rd_strict (resolve_decode_options d)) (rd_indent (resolve_decode_options d)) 1 raws ls bs ->
  root_fails parse_f64 (rd_strict (resolve_decode_options d)) bs ls e ->
  try_decode_from_lines raws d = Err e.
Proof.
  intros Sc R. unfold try_decode_from_lines. cbv zeta.
  rewrite (proj2 (stream_err raws _ _ e)) by (right; eauto). reflexivity.
Qed.
Lemma lines_ok_inv raws d v : rd_expand (resolve_decode_options d) = EPOff -> try_decode_from_lines raws d = Ok v ->
  exists ls bs tr, scans (rd_strict (resolve_decode_options d)) (rd_indent (resolve_decode_options d)) 1 raws ls bs /\
    root parse_f64 (rd_strict (resolve_decode_options d)) bs ls tr /\ v = tree_json tr.
Proof.
  intros He H. unfold try_decode_from_lines in H. cbv zeta in H. rewrite He in H.
  destruct (decode_stream_sync _ _) as [evs|] eqn:E; [|discriminate]. cbn [bind] in H.
  apply stream_spec in E as (ls & bs & tr & Sc & R & ->). exists ls, bs, tr. split; [exact Sc|]. split; [exact R|].
  destruct (describes_build _ _ _ (tree_describes tr)) as (n & En & Ev). rewrite En in H. cbn [bind] in H. congruence.
Qed.

Lemma scans_length strict size n raws ls bs : scans strict size n raws ls bs -> length raws = length ls + length bs.
Proof. induction 1; cbn; lia. Qed.

(** The lines are used up to some point. *)
Lemma cut_where strict size raws ls bs used rest : scans strict size 1 raws ls bs -> ls = used ++ rest ->
  exists j, j <= length raws /\ (rest = [] -> bs = [] -> j = length raws) /\
  forall k, exists c bs', scans strict size 1 (firstn k raws) (firstn c ls) bs' /\ incl bs' bs /\
    (j <= k -> exists s, firstn c ls = used ++ s /\ rest = s ++ skipn c ls) /\
    (k < j -> length rest < length (skipn c ls)).
Proof.
  intros Sc Eu. assert (Lu : length ls = length used + length rest) by (rewrite Eu; apply app_length).
  destruct (scans_firstn _ _ _ _ _ _ Sc (length used)) as (j & Lj & H); [lia|].
  exists j. split; [exact Lj|]. split.
  - intros -> ->. apply scans_length in Sc. cbn in *. destruct (H j) as (c & _ & _ & _ & _ & Lk & Hk). lia.
  - intros k. destruct (H k) as (c & bs' & Sk & I & Lc & Lk & Hk). exists c, bs'. split; [exact Sk|]. split; [exact I|].
    assert (Es : firstn c ls ++ skipn c ls = used ++ rest) by (rewrite firstn_skipn; exact Eu).
    rewrite skipn_length. split; intros Hj; [|lia].
    destruct (app_split_le _ _ _ _ Es) as (s & Er & Ep); [rewrite skipn_length; lia|]. eauto.
Qed.

Lemma cut_lines raws d ls bs v rest : rd_expand (resolve_decode_options d) = EPOff ->
  scans (rd_strict (resolve_decode_options d)) (rd_indent (resolve_decode_options d)) 1 raws ls bs ->
  root_to parse_f64 (rd_strict (resolve_decode_options d)) bs ls v rest ->
  exists j, j <= length raws /\ (rest = [] -> bs = [] -> j = length raws) /\ forall k,
    (j <= k -> try_decode_from_lines (firstn k raws) d = Ok (tree_json v)) /\
    (k < j -> cut_outcome (rd_strict (resolve_decode_options d)) (firstn k raws)
                (try_decode_from_lines (firstn k raws) d) (tree_json v)).
Proof.
  intros He Sc R. destruct (root_keep _ _ _ _ _ _ R) as (used & Eu & Kp).
  destruct (cut_where _ _ _ _ _ _ _ Sc Eu) as (j & Lj & Fj & H). exists j. split; [exact Lj|]. split; [exact Fj|].
  intros k. destruct (H k) as (c & bs' & Sk & I & Hle & Hlt). split; intros Hj.
  - (* everything read is there *)
    destruct (Hle Hj) as (s & Ep & Er). rewrite Ep in Sk. eapply lines_ok; eauto.
  - specialize (Hlt Hj).
    destruct (root_cut _ _ _ _ _ _ R (scans_asc _ _ _ _ _ _ Sc) bs' (firstn c ls) (skipn c ls) I (eq_sym (firstn_skipn c ls)))
      as [(s & Er & _)|[Z|[(w & Sh & Rc)|(S & e & M & F)]]].
    + exfalso. apply (f_equal (@length _)) in Er. rewrite app_length in Er. lia.
    + left. split; [eapply scans_no_text; eauto|]. rewrite Z in Sk. apply (lines_ok _ _ _ _ (TObj []) He Sk). constructor.
    + right. left. exists (tree_json w). split; [eapply lines_ok; eauto|now apply tshort_json].
    + right. right. split; [exact S|]. exists e. split; [eapply lines_err; eauto|exact M].
Qed.

(** A table at the root of a text: the count is the number of rows that are left. *)
Lemma cut_table raws d l ls bs v rest h tail fs : rd_expand (resolve_decode_options d) = EPOff ->
  rd_strict (resolve_decode_options d) = true ->
  scans true (rd_indent (resolve_decode_options d)) 1 raws (l :: ls) bs ->
  root_to parse_f64 true bs (l :: ls) v rest ->
  begins cLBRACK (tl_text l) -> unquoted cCOLON (tl_text l) -> is_header (tl_text l) h tail -> hl_fields h = Some fs -> fs <> [] ->
  exists j, j <= length raws /\ (rest = [] -> bs = [] -> j = length raws) /\ forall k,
    (j <= k -> try_decode_from_lines (firstn k raws) d = Ok (tree_json v)) /\
    (k < j -> Forall blank (firstn k raws) \/
       exists ls' bs', scans true (rd_indent (resolve_decode_options d)) 1 (firstn k raws) (l :: ls') bs' /\ incl bs' bs /\
         (N.of_nat (length ls') < hl_length h)%N /\
         try_decode_from_lines (firstn k raws) d = Err (ECount CRows (hl_length h) (N.of_nat (length ls')))).
Proof.
  intros He S Sc R B Q Hh Hf Hn. destruct (root_keep _ _ _ _ _ _ R) as (used & Eu & Kp).
  destruct (cut_where _ _ _ _ _ _ _ Sc Eu) as (j & Lj & Fj & H). exists j. split; [exact Lj|]. split; [exact Fj|].
  intros k. destruct (H k) as (c & bs' & Sk & I & Hle & Hlt). split; intros Hj.
  - destruct (Hle Hj) as (s & Ep & Er). rewrite Ep in Sk. rewrite <- S in *. eapply lines_ok; eauto.
  - specialize (Hlt Hj). destruct c as [|c].
    + left. eapply scans_no_text; eauto.
    + right. cbn [firstn skipn] in *. exists (firstn c ls), bs'. split; [exact Sk|]. split; [exact I|].
      destruct (root_table_cut _ _ _ _ _ _ _ _ _ _ R B Q Hh Hf Hn eq_refl bs' (firstn c ls) (skipn c ls) I (eq_sym (firstn_skipn c ls)) Hlt) as [L F].
      split; [exact L|]. rewrite <- S in *. eapply lines_err; eauto.
Qed.

Lemma scans_first strict size n raws ls : scans strict size n raws ls [] -> forall k, Forall blank (firstn (S k) raws) -> raws = [].
Proof.
  intros Sc k F. inversion Sc as [|? ? ? ? ? ? ? E1|? i t dp raws' ls' ? Hb]; subst; [reflexivity|].
  exfalso. cbn in F. inversion F as [|? ? B _]; subst. apply Hb. unfold blank in *. apply Forall_app in B. apply B.
Qed.

(** ** From the decoder's relation, with the lines it leaves *)
Lemma root_to_sound cx ls evs c' : lines_rel cx ls evs c' ->
  exists v, root_to parse_f64 (dc_strict cx) (map bl_line (dc_blanks cx)) (map tl_of ls) v (map tl_of (cu_rest c')) /\ evs = tree_events v.
Proof.
  destruct (read_sound cx) as (Hkv & Hof & Harr & _). intros H.
  destruct H as [|first rest h iv evs c' Ha Hh Hr|first p Hn Hk Hp|first rest e1 c1 e2 c2 Hn Hor H1 H2].
  - exists (TObj []). split; [constructor|reflexivity].
  - apply header_some_inv in Hh as (hl & tail & Hh & -> & ->). apply array_content_spec in Ha as [Ha1 Ha2].
    destruct (Harr _ _ _ _ _ _ Hr hl tail eq_refl eq_refl (header_delim _ _ _ Hh)) as (v & Hv & ->). exists v. split; [|reflexivity].
    cbn [map]. eapply rt_array; eauto.
  - exists (TPrim p). split; [|reflexivity]. apply rt_prim; [now apply not_array_spec|now apply colon_line_not|now apply prim_trim].
  - apply Hkv in H1 as (m & Hm & ->). apply root_fields_iff in H2. destruct (Hof _ _ _ _ _ H2 0) as (ms & Hms & ->); auto.
    exists (TObj (m :: ms)). split; [|rewrite tree_events_obj; cbn [flat_map]; now rewrite <- app_assoc].
    cbn [map]. eapply rt_object; eauto. now apply not_array_spec.
Qed.

(** ** The encoder's lines *)
Lemma layout_root_to dl ind w abs strict : std_delim dl -> ind <> 0 -> lay_root True dl w abs ->
  exists ls tr, scans strict ind 1 (map (render ind) abs) ls [] /\ root_to parse_f64 strict [] ls tr [] /\ tree_json tr = w /\
    map tl_text ls = map snd abs.
Proof.
  intros Hd Hi Hl. pose proof (lay_root_clean dl Hd _ _ _ Hl) as Hc.
  destruct (scan_render ind abs Hc Hi 0) as [H1 H2].
  destruct (lay_root_read dl Hd (DCtx strict []) eq_refl w abs Hl _ H1) as (c & Hr & Ec).
  assert (P : parse_lines_sync (map (render ind) abs) ind strict (ScanState 0 []) =
    Ok (fst (scan_from 0 ind (map (render ind) abs)), ScanState (0 + length (map (render ind) abs)) [])).
  { apply parse_lines_scan. split; [intros _; now apply render_indent_clean|]. cbn [ss_line ss_blanks]. rewrite H2. auto. }
  apply scans_sound in P as (bs & Sc & Eb). cbn in Eb. subst bs.
  destruct (root_to_sound _ _ _ _ Hr) as (tr & R & Ev). cbn [dc_strict dc_blanks map] in R. rewrite Ec in R. cbn [map] in R.
  exists (map tl_of (fst (scan_from 0 ind (map (render ind) abs)))), tr. split; [exact Sc|]. split; [exact R|]. split.
  - destruct (emit_builds w) as (n & En & Hn). destruct (describes_build _ _ _ (tree_describes tr)) as (n' & En' & Hn'). congruence.
  - clear -H1. induction H1 as [|l a ls abs [_ E] _ IH]; [reflexivity|]. cbn. now rewrite IH, E.
Qed.

Lemma write_rows_length rows header : is_tabular_array rows header = true ->
  forall depth o ls, write_tabular_rows_lines rows header depth o = Ok ls -> length ls = length rows.
Proof.
  unfold is_tabular_array. induction rows as [|row rows IH]; intros Ht depth o ls E; cbn [write_tabular_rows_lines] in E.
  - now injection E as <-.
  - cbn [forallb] in Ht. apply andb_prop in Ht as [H1 H2]. destruct row as [p|l|l]; try discriminate.
    destruct (row_cells header l); [|discriminate]. cbn [bind] in E.
    destruct (write_tabular_rows_lines rows header depth o) as [rest|] eqn:Er; [|discriminate]. cbn [bind] in E. injection E as <-.
    cbn. now rewrite (IH H2 _ _ _ Er).
Qed.
Lemma table_encoded o l fields ls : encode_json_value (JArr l) o = Ok ls -> good True true (JArr l) -> extract_tabular_header l = Some fields ->
  exists m abs, lay_arr True (ro_delimiter o) None 0 m ((0, format_header (length l) None (Some fields) (ro_delimiter o)) :: abs) /\
    ls = map (render (ro_indent o)) ((0, format_header (length l) None (Some fields) (ro_delimiter o)) :: abs) /\
    written false true (JArr l) (JArr m) /\ length ls = S (length l).
Proof.
  intros E Hg He. cbn [encode_json_value] in E. replace (enc_fuel (JArr l)) with (S (3 * jsize (JArr l) + 2)) in E by (unfold enc_fuel; lia).
  cbn [encode_array_lines] in E. cbv zeta in E.
  assert (H1 : is_empty l = false) by (destruct l; [discriminate|reflexivity]). rewrite H1 in E.
  assert (H2 : is_array_of_primitives l = false).
  { destruct (is_array_of_primitives l) eqn:X; [|reflexivity]. rewrite (extract_prims _ X) in He. discriminate. } rewrite H2 in E.
  assert (H3 : is_array_of_arrays l = false).
  { destruct (is_array_of_arrays l) eqn:X; [|reflexivity]. rewrite (extract_arrays _ X) in He. discriminate. } rewrite H3 in E. cbn [andb] in E.
  rewrite (extract_objects _ _ He), He in E. unfold encode_array_of_objects_as_tabular_lines in E. cbv zeta in E.
  destruct (write_tabular_rows_lines l fields 1 o) as [rest|] eqn:Er; [|discriminate]. cbn [bind] in E. injection E as <-.
  destruct (table_lines True o None 0 l fields rest Hg He Er) as (m & abs & L & Ea & W).
  exists m, abs. split; [exact L|]. split; [cbn [map]; now rewrite <- Ea|]. split; [apply W|].
  cbn [length]. f_equal. apply extract_header in He as (first & r & -> & _ & _ & Ht). eapply write_rows_length; eauto.
Qed.
