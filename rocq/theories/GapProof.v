(** For C24: a text with blank lines is read exactly when none of them is inside an array. *)
From Coq Require Import Sorted.
From Verif Require Import Chars Floats Json Shared Scanner Parser DecValidation Decoders Lex Spec DecRel DecProps DecRelax
  SpecRead ReadLex ReadHead ReadLine ReadProof SpecGap CutProof PropsStream PropsUnread.

Local Open Scope nat_scope.

Local Notation member := (member parse_f64 true).
Local Notation members := (members parse_f64 true).
Local Notation array := (array parse_f64 true).
Local Notation items := (items parse_f64 true).
Local Notation item := (item parse_f64 true).
Local Notation root := (root parse_f64 true).
Local Notation rows := (rows parse_f64 true).

(** Where reading stops. *)
Definition parsed_of (l : tline) : parsed_line := PLine [] 0 (tl_text l) (tl_depth l) (tl_no l).
Lemma parsed_of_tl ls : map tl_of (map parsed_of ls) = ls.
Proof. rewrite map_map. rewrite <- (map_id ls) at 2. apply map_ext. intros []. reflexivity. Qed.

Lemma member_stops d t ls m rest m' rest' : member [] d t ls m rest -> member [] d t ls m' rest' -> rest = rest'.
Proof.
  intros H H'. set (c := Cursor (map parsed_of ls) None).
  destruct (read_complete (DCtx true [])) as (C & _).
  destruct (C _ _ _ _ _ H c (parsed_of_tl ls)) as (c1 & R1 & <-). destruct (C _ _ _ _ _ H' c (parsed_of_tl ls)) as (c2 & R2 & <-).
  apply (kv_exact _ _ _ _ _ _ (5 * rem c + 3)) in R1; [|lia]. apply (kv_exact _ _ _ _ _ _ (5 * rem c + 3)) in R2; [|lia]. congruence.
Qed.
Lemma array_stops d h tail ls v rest v' rest' : head_delim h -> array [] d h tail ls v rest -> array [] d h tail ls v' rest' -> rest = rest'.
Proof.
  intros D H H'. set (c := Cursor (map parsed_of ls) None).
  destruct (read_complete (DCtx true [])) as (_ & _ & C & _).
  destruct (C _ _ _ _ _ _ H D c (parsed_of_tl ls)) as (c1 & R1 & <-). destruct (C _ _ _ _ _ _ H' D c (parsed_of_tl ls)) as (c2 & R2 & <-).
  apply (arr_exact _ _ _ _ _ _ _ (5 * rem c + 2)) in R1; [|lia]. apply (arr_exact _ _ _ _ _ _ _ (5 * rem c + 2)) in R2; [|lia]. congruence.
Qed.

Section Blanks.
Variable bs : list nat.

Lemma frames_same (J : list nat -> list tline -> list tline -> Prop) ls rest : frames bs J ls rest -> J [] ls rest.
Proof.
  intros (u & -> & H). specialize (H [] rest []). apply H; [apply incl_nil_l|symmetry; apply app_nil_r].
Qed.
Lemma member_without d t ls m rest : member bs d t ls m rest -> member [] d t ls m rest.
Proof. intros H. apply read_frames in H. now apply frames_same in H. Qed.
Lemma array_without d h tail ls v rest : array bs d h tail ls v rest -> array [] d h tail ls v rest.
Proof. intros H. apply read_frames in H. now apply frames_same in H. Qed.
Lemma root_without ls v : root bs ls v -> root [] ls v.
Proof.
  destruct 1 as [|l ls h tail v rest B Q H A|l p N C P|l ls m ls1 ms rest N C M R].
  - constructor.
  - eapply ro_array; eauto using array_without.
  - now apply ro_prim.
  - eapply ro_object; eauto using member_without. apply read_frames in R. apply frames_same in R. exact R.
Qed.

(** Read with blank lines: none is inside. *)
Lemma array_gap d h tail ls v rest used v' rest' : head_delim h -> blank tail -> array [] d h tail ls v rest -> ls = used ++ rest ->
  array bs d h tail ls v' rest' -> no_gap bs used.
Proof.
  intros D B A E A'. pose proof (array_stops _ _ _ _ _ _ _ _ D A (array_without _ _ _ _ _ _ A')) as <-.
  inversion A' as [? ? ? ? t ps T N _ _|? ? ? ? fs vs u ? _ _ _ _ E' S|? ? ? ? vs u ? _ _ _ E' S]; subst.
  - exfalso. apply N. apply trims_spec in T as ->. now apply blank_trim.
  - destruct (S eq_refl) as (_ & G & _). apply app_inv_tail in E' as ->. exact G.
  - destruct (S eq_refl) as (_ & G & _). apply app_inv_tail in E' as ->. exact G.
Qed.
Lemma bodies_gap :
  (forall d t ls used, member_body parse_f64 d t ls used -> forall m rest, member bs d t ls m rest -> no_gap bs used) /\
  (forall d ls used, members_body parse_f64 d ls used -> forall ms rest, members bs false d ls ms rest -> no_gap bs used).
Proof.
  assert (NP : forall t h tail k, is_header t h tail -> hl_key h = Some k -> ~ plain t).
  { intros t h tail k H K [P|(h' & tail' & H' & K')]; [now apply header_not_none in H|]. destruct (is_header_fun _ _ _ _ _ H H') as [<- <-]. congruence. }
  apply body_mutind.
  - intros d t ls h tail k v used rest H K B A E m rest' M.
    inversion M as [? ? ? h' tail' ? ? ? ? H' K' A'|? ? ? ? ? ? ? ? ? ? P|? ? ? ? ? ? P|? ? ? ? ? ? ? P]; subst; try (exfalso; eapply NP; eauto; fail).
    destruct (is_header_fun _ _ _ _ _ H H') as [<- <-]. eapply array_gap; eauto. eapply header_delim; eauto.
  - intros d t ls k q r l ls' used P K B E Hd _ IH m rest M.
    inversion M as [? ? ? h' tail' ? ? ? ? H' K' A'|? ? ? ? ? ? l0 ? ? ? P' K' B' E' D' Ms|? ? ? ? ? ? P' K' B' En|? ? ? ? ? ? ? P' K' B' T]; subst.
    + exfalso. eapply NP; eauto.
    + injection E' as <- <-. eapply IH; eauto.
    + exfalso. exact (En _ _ eq_refl Hd).
    + exfalso. destruct (key_line_fun _ _ _ _ _ _ _ K K') as (_ & _ & <-). contradiction.
  - intros d l ls used D _ IH ms rest M. inversion M as [? ? ? En|? ? ? ? m ls1 ms' ? D' N' Mm Ms]; subst; [|eapply IH; eauto].
    exfalso. apply (En _ _ eq_refl). split; [reflexivity|]. intros [X _]. discriminate.
  - intros d l ls m ls1 used D Mm _ IH ms rest M. inversion M as [? ? ? En|? ? ? ? m' ls1' ms' ? D' N' Mm' Ms]; subst.
    + exfalso. apply (En _ _ eq_refl). split; [reflexivity|]. intros [X _]. discriminate.
    + rewrite (member_stops _ _ _ _ _ _ _ Mm (member_without _ _ _ _ _ Mm')) in *. eapply IH; eauto.
Qed.
Lemma root_gap ls v used : root bs ls v -> body parse_f64 ls used -> no_gap bs used.
Proof.
  intros R B. inversion B as [l ls0 h tail v' u rest (R1 & R2 & R3) Bl A E|l ls0 u N M|l ls0 m ls1 u N M Ms]; subst.
  - inversion R as [|? ? h' tail' ? rest' _ _ H' A'|? ? N|? ? ? ? ? ? N]; subst.
    + destruct (is_header_fun _ _ _ _ _ R3 H') as [<- <-]. eapply array_gap; eauto. eapply header_delim; eauto.
    + destruct N as [N|N]; [exfalso; now apply N|now apply header_not_none in R3].
    + destruct N as [N|N]; [exfalso; now apply N|now apply header_not_none in R3].
  - inversion R as [|? ? h' tail' ? rest' B1 B2 H' A'|? ? N' NC|? ? ? ? ? ? N' C Mm Ms]; subst.
    + exfalso. now apply (N h' tail').
    + inversion M as [? ? ? ? ? ? ? ? ? _ _ _ _ E|]; subst; [|discriminate]. symmetry in E. apply app_eq_nil in E as [-> _]. intros ? ? ? ? E. discriminate.
    + eapply (proj1 bodies_gap); eauto.
  - inversion R as [|? ? h' tail' ? rest' B1 B2 H' A'|? ? N' NC|? ? m' ls1' ? ? N' C Mm Ms']; subst.
    + exfalso. now apply (N h' tail').
    + exfalso. apply NC. eapply member_has_colon; eauto.
    + rewrite (member_stops _ _ _ _ _ _ _ M (member_without _ _ _ _ _ Mm)) in *. eapply (proj2 bodies_gap); eauto.
Qed.

(** None inside: read with blank lines. *)
Definition clear (us : list tline) : Prop := forall a b n, In a us -> In b us -> In n bs -> ~ (tl_no a < n /\ n < tl_no b).
Lemma clear_incl us ws : incl ws us -> clear us -> clear ws.
Proof. intros I C a b n Ha Hb. apply C; auto. Qed.
Lemma clear_gap us : clear us -> no_gap bs us.
Proof. intros C a b m z E E' n Hn. apply C; [rewrite E; now left|rewrite E'; apply in_or_app; right; now left|exact Hn]. Qed.
Lemma gap_clear us : asc us -> no_gap bs us -> clear us.
Proof.
  intros A G a b n Ha Hb Hn [L1 L2]. destruct us as [|x us]; [easy|]. destruct (exists_last (l := x :: us) ltac:(discriminate)) as (z & y & E).
  apply (G x y us z eq_refl E n Hn). split.
  - assert (tl_no x <= tl_no a); [|lia]. destruct Ha as [<-|Ha]; [lia|]. inversion A as [|? ? _ F]; subst. rewrite Forall_forall in F. specialize (F _ Ha). lia.
  - assert (tl_no b <= tl_no y); [|lia]. apply in_split in Hb as (p & q & Eb). rewrite Eb in A, E. eapply asc_last; eauto.
Qed.

Definition over (ls rest : list tline) : Prop := forall used, ls = used ++ rest -> clear used.
Lemma over_seq a b c : (exists u, a = u ++ b) -> (exists u, b = u ++ c) -> over a c -> over a b /\ over b c.
Proof.
  intros (u & ->) (w & ->) H. specialize (H (u ++ w) (app_assoc _ _ _)). split; intros x E; apply app_inv_tail in E as <-; eapply clear_incl; eauto.
  - now apply incl_appl.
  - now apply incl_appr.
Qed.
Lemma over_cons l a b : over (l :: a) b -> over a b.
Proof. intros H u ->. eapply clear_incl; [|exact (H (l :: u) eq_refl)]. now apply incl_tl. Qed.
Lemma uses_ex a b n : uses a b n -> exists u, a = u ++ b.
Proof. intros (u & E & _). eauto. Qed.

Lemma read_clear :
  (forall d t ls m rest, member [] d t ls m rest -> over ls rest -> member bs d t ls m rest) /\
  (forall stop d ls ms rest, members [] stop d ls ms rest -> over ls rest -> members bs stop d ls ms rest) /\
  (forall d h tail ls v rest, array [] d h tail ls v rest -> over ls rest -> array bs d h tail ls v rest) /\
  (forall d n ls vs rest, items [] d n ls vs rest -> over ls rest -> items bs d n ls vs rest) /\
  (forall d t ls v rest, item [] d t ls v rest -> over ls rest -> item bs d t ls v rest).
Proof.
  destruct (read_uses parse_f64 true []) as (Um & Us & _ & Ui & Ui1).
  apply read_mutind.
  - intros. eapply mb_array; eauto.
  - intros. eapply mb_object; eauto.
  - intros. eapply mb_empty; eauto.
  - intros. eapply mb_prim; eauto.
  - intros. now apply ms_end.
  - intros stop d l ls m ls1 ms rest D N M IH1 Ms IH2 O. apply over_cons in O.
    destruct (over_seq ls ls1 rest) as [O1 O2]; eauto using uses_ex. eapply ms_more; eauto.
  - intros. eapply ar_inline; eauto.
  - intros d h tail ls fs vs used rest B F N R E S O. eapply ar_table; eauto. intros T. destruct (S T) as (S1 & _ & S3). split; [exact S1|]. split; [|exact S3].
    apply clear_gap. now apply O.
  - intros d h tail ls vs used rest B F I IH E S O. eapply ar_list; eauto. intros T. destruct (S T) as (S1 & _ & S3). split; [exact S1|]. split; [|exact S3].
    apply clear_gap. now apply O.
  - intros. apply is_full.
  - intros. now apply is_end.
  - intros d n l ls v ls1 vs rest D M IH1 Ms IH2 O. apply over_cons in O.
    destruct (over_seq ls ls1 rest) as [O1 O2]; eauto using uses_ex. eapply is_more; eauto.
  - intros. apply im_bare.
  - intros. now apply im_empty.
  - intros. eapply im_array; eauto.
  - intros d t ls m ls1 ms rest B U K M IH1 Ms IH2 O.
    destruct (over_seq ls ls1 rest) as [O1 O2]; eauto using uses_ex. eapply im_object; eauto.
  - intros. now apply im_prim.
Qed.

Lemma array_clear d h tail ls v rest : asc ls -> array [] d h tail ls v rest ->
  (blank tail -> forall used, ls = used ++ rest -> no_gap bs used) -> array bs d h tail ls v rest.
Proof.
  intros A H G. destruct (inline_of tail) as [iv|] eqn:E.
  - inversion H; subst; [eapply ar_inline; eauto| |]; apply inline_none in H0; congruence.
  - apply inline_none in E. apply read_clear; [exact H|]. intros u ->. apply gap_clear; [eapply asc_prefix; eauto|]. now apply G.
Qed.
Lemma outer_clear :
  (forall d t ls m rest, member [] d t ls m rest -> asc ls -> (forall used, member_body parse_f64 d t ls used -> no_gap bs used) -> member bs d t ls m rest) /\
  (forall stop d ls ms rest, members [] stop d ls ms rest -> stop = false -> asc ls -> (forall used, members_body parse_f64 d ls used -> no_gap bs used) -> members bs stop d ls ms rest) /\
  (forall d h tail ls v rest, array [] d h tail ls v rest -> True) /\
  (forall d n ls vs rest, items [] d n ls vs rest -> True) /\
  (forall d t ls v rest, item [] d t ls v rest -> True).
Proof.
  destruct (read_uses parse_f64 true []) as (Um & _).
  apply read_mutind; try (intros; exact I).
  - intros d t ls h tail k q v rest H K A _ As G. eapply mb_array; eauto. apply array_clear; auto. intros B used E. apply G. eapply mb_here; eauto.
  - intros d t ls k q r l ls' ms rest P K B E D M IH As G. eapply mb_object; eauto. apply IH; auto. intros used U. apply G. eapply mb_inside; eauto.
  - intros. eapply mb_empty; eauto.
  - intros. eapply mb_prim; eauto.
  - intros. now apply ms_end.
  - intros stop d l ls m ls1 ms rest D N M IH1 _ IH2 St As G. assert (As1 : asc ls) by (inversion As; assumption).
    eapply ms_more; eauto.
    + apply IH1; [exact As1|]. intros used U. apply G. now apply ms_first.
    + destruct (uses_ex _ _ _ (Um _ _ _ _ _ M)) as (u & ->). apply IH2; [exact St|eapply asc_suffix; eauto|]. intros used U. apply G. eapply ms_later; eauto.
Qed.
Lemma root_clear ls v : asc ls -> root [] ls v -> (forall used, body parse_f64 ls used -> no_gap bs used) -> root bs ls v.
Proof.
  intros As R G. destruct (read_uses parse_f64 true []) as (Um & _).
  destruct R as [|l ls h tail v rest B Q H A|l p N C P|l ls m ls1 ms rest N C M R].
  - constructor.
  - eapply ro_array; eauto. apply array_clear; [now inversion As|exact A|]. intros Bl used E. apply G. eapply bo_array; eauto. repeat split; assumption.
  - now apply ro_prim.
  - assert (NR : forall h tail, ~ root_array l h tail).
    { intros h tail (R1 & R2 & R3). destruct N as [N|N]; [now apply N|now apply header_not_none in R3]. }
    assert (As1 : asc ls) by (inversion As; assumption).
    eapply ro_object; eauto.
    + apply outer_clear; [exact M|exact As1|]. intros used U. apply G. now apply bo_first.
    + destruct (uses_ex _ _ _ (Um _ _ _ _ _ M)) as (u & ->). apply outer_clear; [exact R|reflexivity|eapply asc_suffix; eauto|].
      intros used U. apply G. eapply bo_later; eauto.
Qed.
End Blanks.

Lemma blanks_exactly bs ls v : asc ls -> root bs ls v <-> root [] ls v /\ forall used, body parse_f64 ls used -> no_gap bs used.
Proof.
  intros As. split.
  - intros R. split; [eapply root_without; eauto|]. intros used. now apply root_gap with (v := v).
  - intros [R G]. now apply root_clear.
Qed.

(** The numbers of the lines matter only for blank lines. *)
Definition same_line (a b : tline) : Prop := tl_depth a = tl_depth b /\ tl_text a = tl_text b.
Local Notation same := (Forall2 same_line).
Definition moves (J : list tline -> list tline -> Prop) (ls rest : list tline) : Prop :=
  forall ls', same ls ls' -> exists rest', same rest rest' /\ J ls' rest'.
Lemma moves_0 (J : list tline -> list tline -> Prop) ls : (forall ls', same ls ls' -> J ls' ls') -> moves J ls ls.
Proof. intros H ls' S. eauto. Qed.
Lemma moves_map (A J : list tline -> list tline -> Prop) a b : moves A a b -> (forall x y, same a x -> A x y -> J x y) -> moves J a b.
Proof. intros H F ls' S. destruct (H _ S) as (r & Sr & X). eauto. Qed.
Lemma moves_seq (A B J : list tline -> list tline -> Prop) a b c :
  moves A a b -> moves B b c -> (forall x y z, A x y -> B y z -> J x z) -> moves J a c.
Proof. intros H K F ls' S. destruct (H _ S) as (r & Sr & X). destruct (K _ Sr) as (r2 & Sr2 & Y). eauto. Qed.
Lemma moves_cons (A J : list tline -> list tline -> Prop) l a b :
  moves A a b -> (forall l' x y, same_line l l' -> A x y -> J (l' :: x) y) -> moves J (l :: a) b.
Proof. intros H F ls' S. inversion S as [|? l' ? a' Sl Sa]; subst. destruct (H _ Sa) as (r & Sr & X). eauto. Qed.
Lemma ends_same (P : tline -> Prop) ls ls' : (forall a b, same_line a b -> P b -> P a) -> same ls ls' -> ends P ls -> ends P ls'.
Proof. intros F S E l r ->. inversion S; subst. intros Pl. eapply E; eauto. Qed.
Lemma no_gap_nil us : no_gap [] us. Proof. intros ? ? ? ? ? ? ? []. Qed.

Lemma rows_moves dl fs d n ls vs rest : rows dl fs d n ls vs rest -> moves (fun x y => rows dl fs d n x vs y /\ exists u, x = u ++ y) ls rest.
Proof.
  induction 1 as [ls|n ls E|n l ls ps vs rest D P St R IH].
  - apply moves_0. intros. split; [constructor|now exists []].
  - apply moves_0. intros ls' S. split; [|now exists []]. constructor. eapply ends_same; eauto. cbn. intros a b [-> _]. auto.
  - eapply moves_cons; [exact IH|]. cbn. intros l' x y [Sd St'] (X & u & E). split; [|exists (l' :: u); cbn; now f_equal].
    constructor; auto; [congruence|]. now rewrite <- St'.
Qed.
Lemma read_moves :
  (forall d t ls m rest, member [] d t ls m rest -> moves (fun x y => member [] d t x m y) ls rest) /\
  (forall stop d ls ms rest, members [] stop d ls ms rest -> moves (fun x y => members [] stop d x ms y) ls rest) /\
  (forall d h tail ls v rest, array [] d h tail ls v rest -> moves (fun x y => array [] d h tail x v y) ls rest) /\
  (forall d n ls vs rest, items [] d n ls vs rest -> moves (fun x y => items [] d n x vs y) ls rest) /\
  (forall d t ls v rest, item [] d t ls v rest -> moves (fun x y => item [] d t x v y) ls rest).
Proof.
  destruct (read_uses parse_f64 true []) as (Um & Us & _ & Ui & Ui1).
  apply read_mutind.
  - intros. eapply moves_map; eauto. cbn. intros. eapply mb_array; eauto.
  - intros d t ls k q r l ls' ms rest P K B -> D M IH x S. destruct (IH x S) as (y & Sy & X).
    inversion S as [|? l' ? a' [Sd _] Sa]; subst. exists y. split; [exact Sy|]. rewrite Sd in *. eapply mb_object; eauto.
  - intros. apply moves_0. intros. eapply mb_empty; eauto. eapply ends_same; eauto. cbn. intros a b [-> _]. auto.
  - intros. apply moves_0. intros. eapply mb_prim; eauto.
  - intros. apply moves_0. intros. apply ms_end. eapply ends_same; eauto. cbn. intros a b [-> ->]. auto.
  - intros stop d l ls m ls1 ms rest D N M IH1 Ms IH2. eapply moves_cons; [eapply moves_seq; [exact IH1|exact IH2|]|].
    + intros x y z A B. exact (ex_intro (fun y => member [] d (tl_text l) x m y /\ members [] stop d y ms z) y (conj A B)).
    + cbn. intros l' x y [Sd St] (z & A & B). eapply ms_more; [congruence|now rewrite <- St| |exact B]. now rewrite <- St.
  - intros. apply moves_0. intros. eapply ar_inline; eauto.
  - intros d h tail ls fs vs used rest B F N R E St x S. destruct (rows_moves _ _ _ _ _ _ _ R _ S) as (y & Sy & X & u & Eu).
    exists y. split; [exact Sy|]. eapply ar_table; eauto. intros T. destruct (St T) as (S1 & _ & S3). split; [exact S1|]. split; [apply no_gap_nil|].
    eapply ends_same; eauto. cbn. intros a b [-> ->]. auto.
  - intros d h tail ls vs used rest B F R IH E St x S. destruct (IH _ S) as (y & Sy & X). destruct (uses_ex _ _ _ (Ui _ _ _ _ _ X)) as (u & Eu).
    exists y. split; [exact Sy|]. eapply ar_list; eauto. intros T. destruct (St T) as (S1 & _ & S3). split; [exact S1|]. split; [apply no_gap_nil|].
    eapply ends_same; eauto. cbn. intros a b [-> ->]. auto.
  - intros. apply moves_0. intros. apply is_full.
  - intros. apply moves_0. intros. apply is_end. eapply ends_same; eauto. cbn. intros a b [-> ->]. auto.
  - intros d n l ls v ls1 vs rest D M IH1 Ms IH2. eapply moves_cons; [eapply moves_seq; [exact IH1|exact IH2|]|].
    + intros x y z A B. exact (ex_intro (fun y => item [] d (tl_text l) x v y /\ items [] d n y vs z) y (conj A B)).
    + cbn. intros l' x y [Sd St] (z & A & B). eapply is_more; [congruence| |exact B]. now rewrite <- St.
  - intros. apply moves_0. intros. apply im_bare.
  - intros. apply moves_0. intros. now apply im_empty.
  - intros. eapply moves_map; eauto. cbn. intros. eapply im_array; eauto.
  - intros d t ls m ls1 ms rest B U K M IH1 Ms IH2. eapply moves_seq; [exact IH1|exact IH2|]. cbn. intros. eapply im_object; eauto.
  - intros. apply moves_0. intros. now apply im_prim.
Qed.
Lemma root_moves ls v ls' : root [] ls v -> same ls ls' -> root [] ls' v.
Proof.
  destruct read_moves as (Mm & Ms & Ma & _).
  intros R S. destruct R as [|l ls h tail v rest B Q H A|l p N C P|l ls m ls1 ms rest N C M R].
  - inversion S. constructor.
  - inversion S as [|? l' ? a' [_ St] Sa]; subst. rewrite St in *. destruct (Ma _ _ _ _ _ _ A _ Sa) as (r & _ & X). eapply ro_array; eauto.
  - inversion S as [|? l' ? a' [_ St] Sa]; subst. inversion Sa; subst. rewrite St in *. now apply ro_prim.
  - inversion S as [|? l' ? a' [_ St] Sa]; subst. rewrite St in *. destruct (Mm _ _ _ _ _ M _ Sa) as (r & Sr & X). destruct (Ms _ _ _ _ _ R _ Sr) as (r2 & _ & Y).
    eapply ro_object; eauto. destruct C as [C|C]; [left|now right]. intros ->. inversion Sa; subst. now apply C.
Qed.

Lemma scans_content strict size n raws ls bs : scans strict size n raws ls bs -> forall n',
  exists ls', scans strict size n' (filter nonblank raws) ls' [] /\ same ls ls'.
Proof.
  induction 1 as [n|n raw raws ls bs B Sc IH|n k t d raws ls bs N Sp D T Sc IH]; intros n'.
  - exists []. split; constructor.
  - destruct (IH n') as (ls' & S' & E). cbn [filter]. rewrite (proj2 (nonblank_spec raw) B). eauto.
  - destruct (IH (S n')) as (ls' & S' & E). cbn [filter].
    destruct (nonblank (repeat cSPACE k ++ t)) eqn:Eb; [|apply nonblank_spec, blank_spaces in Eb; contradiction].
    exists (TLine n' d t :: ls'). split; [|constructor; [now split|exact E]]. now constructor.
Qed.
