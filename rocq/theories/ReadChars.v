(** The strings of a decoded value consist of characters of the text, or of the three that are only
    written as escapes. *)
From Verif Require Import Chars Floats Json JsonInd Spec SpecText SpecRead SpecExpand CharsKept.

Local Open Scope nat_scope.

Section Kept.
Variable P : char -> Prop.
Hypothesis named : P cLF /\ P cCR /\ P cTAB.

Inductive kept : tree -> Prop :=
| ke_prim p : (forall s, p = PStr s -> Forall P s) -> kept (TPrim p)
| ke_arr n l : Forall kept l -> kept (TArr n l)
| ke_obj l : Forall (fun m => Forall P (fst (fst m)) /\ kept (snd m)) l -> kept (TObj l).
Lemma kept_spelled : forall t, kept t -> spelled P (tree_json t).
Proof.
  fix IH 2. intros t H. destruct H as [p Hp|n l Hl|l Hl]; cbn [tree_json]; constructor.
  - exact Hp.
  - induction Hl as [|x l Hx _ IHl]; cbn [map]; constructor; [apply IH; exact Hx|exact IHl].
  - induction Hl as [|[[k q] x] l [Hk Hx] _ IHl]; cbn [map]; constructor; [|exact IHl]. cbn [fst snd] in *. split; [exact Hk|apply IH; exact Hx].
Qed.

Lemma trims_ok s t : trims s t -> Forall P s -> Forall P t.
Proof. intros (a & b & -> & _) H. apply Forall_app in H as [_ H]. now apply Forall_app in H as [H _]. Qed.
Lemma cut_ok c s a b : cut c s a b -> Forall P s -> Forall P a /\ Forall P b.
Proof. intros [-> _] H. apply Forall_app in H as [H1 H2]. now inversion H2. Qed.
Lemma unescapes_ok t s : unescapes t s -> Forall P t -> Forall P s.
Proof.
  induction 1 as [|c t s _ _ _ IH|c e t s He _ IH]; intros H; [constructor| |].
  - inversion H; subst. constructor; auto.
  - inversion H as [|? ? _ H']; subst. inversion H' as [|? ? Hd H'']; subst. constructor; [|auto]. destruct named as (N1 & N2 & N3).
    cbn in He. repeat destruct He as [He|He]; try contradiction; injection He as <- <-; assumption.
Qed.
Lemma quotes_ok t s : quotes t s -> Forall P t -> Forall P s.
Proof. intros (b & -> & Hb) H. inversion H as [|? ? _ H']; subst. apply Forall_app in H' as [H' _]. eapply unescapes_ok; eauto. Qed.
Lemma string_ok t s : string_text t s -> Forall P t -> Forall P s.
Proof. intros (u & Hu & [[-> _]|Hq]) H; [eapply trims_ok; eauto|]. eapply quotes_ok; [exact Hq|]. eapply trims_ok; eauto. Qed.
Lemma prim_ok double t p : prim_text double t p -> Forall P t -> kept (TPrim p).
Proof.
  intros H Ht. constructor. intros s ->. inversion H as [|u s' Hu Hq| | | | |u Hu]; subst.
  - constructor.
  - eapply quotes_ok; [exact Hq|]. eapply trims_ok; eauto.
  - eapply trims_ok; eauto.
Qed.
Lemma pieces_ok dl s ts : pieces dl s ts -> Forall P s -> Forall (Forall P) ts.
Proof.
  induction 1 as [p t _ Ht|p t r ts _ _ Ht _ IH]; intros H.
  - constructor; [eapply trims_ok; eauto|constructor].
  - apply Forall_app in H as [H1 H2]. inversion H2; subst. constructor; [eapply trims_ok; eauto|auto].
Qed.
Lemma cells_ok dl s ts : cells dl s ts -> Forall P s -> Forall (Forall P) ts.
Proof. intros [[_ ->]|[_ H]] Hs; [constructor|eapply pieces_ok; eauto]. Qed.
Lemma prims_ok double dl s ps : prims_text double dl s ps -> Forall P s -> Forall (fun p => kept (TPrim p)) ps.
Proof.
  intros (ts & Hc & F) H. apply (cells_ok _ _ _ Hc) in H. clear Hc. induction F as [|t p ts ps Hp _ IH]; constructor; inversion H; subst; [eapply prim_ok; eauto|auto].
Qed.

Lemma head_ok s k r : head s k r -> Forall P s -> Forall P k /\ Forall P r.
Proof.
  intros [k' r' _ Hc|w b r' -> _ _] H; [eapply cut_ok; eauto|].
  apply Forall_app in H as [Hw H]. inversion H as [|? ? Hq H']; subst. apply Forall_app in H' as [Hb H']. inversion H' as [|? ? Hq' H'']; subst.
  inversion H'' as [|? ? Hq'' H''']; subst. split; [|exact H''']. apply Forall_app. split; [exact Hw|]. constructor; [exact Hq|].
  apply Forall_app. split; [exact Hb|]. constructor; [exact Hq|constructor].
Qed.
Lemma tail_ok s f t : tail_parts s f t -> Forall P s -> (forall x, f = Some x -> Forall P x) /\ Forall P t.
Proof.
  intros [m r1 x r2 y u H1 _ H2 H3|m u H1 _] H.
  - destruct (cut_ok _ _ _ _ H1 H) as [_ K1]. destruct (cut_ok _ _ _ _ H2 K1) as [K2 K3]. destruct (cut_ok _ _ _ _ H3 K3) as [_ K4].
    split; [|exact K4]. intros z Hz. now injection Hz as <-.
  - destruct (cut_ok _ _ _ _ H1 H) as [_ K1]. split; [discriminate|exact K1].
Qed.
Definition head_fine (h : head_line) : Prop :=
  (forall k q, hl_key h = Some (k, q) -> Forall P k) /\ (forall fs, hl_fields h = Some fs -> Forall (fun f => Forall P (fst f)) fs).
Lemma header_fine s h tail : is_header s h tail -> Forall P s -> head_fine h /\ Forall P tail.
Proof.
  intros [k len fields tail' key n dl fs (r & after & Hh & Hc & Ht) Hk _ _ Hf] H.
  destruct (head_ok _ _ _ Hh H) as [K1 K2]. destruct (cut_ok _ _ _ _ Hc K2) as [_ K3]. destruct (tail_ok _ _ _ Ht K3) as [K4 K5].
  split; [|exact K5]. split; cbn [hl_key hl_fields].
  - intros k' q ->. inversion Hk as [|t Htr|t s' Htr Hq]; subst; [eapply trims_ok; eauto|]. eapply quotes_ok; [exact Hq|]. eapply trims_ok; eauto.
  - intros l ->. destruct fields as [f|]; [|contradiction]. destruct Hf as (ts & Hce & F). specialize (K4 f eq_refl).
    apply (cells_ok _ _ _ Hce) in K4. clear - F K4 named. induction F as [|t x ts l [Hx _] _ IH]; constructor; inversion K4; subst; [eapply string_ok; eauto|auto].
Qed.
Lemma key_ok s k q r : key_line s k q r -> Forall P s -> Forall P k /\ Forall P r.
Proof.
  intros [b k' r' -> Hu|t k' r' _ Hc Ht] H.
  - inversion H as [|? ? _ H']; subst. apply Forall_app in H' as [H1 H']. inversion H' as [|? ? _ H'']; subst. inversion H'' as [|? ? _ H3]; subst.
    split; [eapply unescapes_ok; eauto|exact H3].
  - destruct (cut_ok _ _ _ _ Hc H) as [K1 K2]. split; [eapply trims_ok; eauto|exact K2].
Qed.

Variable double : str -> option f64.
Variable strict : bool.
Variable blanks : list nat.
Definition lines_kept (ls : list tline) : Prop := Forall (fun l => Forall P (tl_text l)) ls.
Definition member_kept (m : str * bool * tree) : Prop := Forall P (fst (fst m)) /\ kept (snd m).

Lemma row_ok fs ps : Forall (fun f => Forall P (fst f)) fs -> Forall (fun p => kept (TPrim p)) ps -> kept (TObj (row_members fs ps)).
Proof.
  intros Hf. revert ps. assert (K : forall ps, Forall (fun p => kept (TPrim p)) ps -> Forall member_kept (row_members fs ps)).
  { induction Hf as [|[f q] fs Hx _ IH]; intros ps Hp; [constructor|]. cbn [fst] in Hx. destruct Hp as [|p ps Hp Hps]; cbn [row_members].
    - constructor; [split; [exact Hx|constructor; discriminate]|]. apply IH. constructor.
    - constructor; [split; assumption|]. now apply IH. }
  intros ps Hp. constructor. exact (K ps Hp).
Qed.
Lemma rows_ok dl fs d n ls vs rest : rows double strict dl fs d n ls vs rest ->
  Forall (fun f => Forall P (fst f)) fs -> lines_kept ls -> Forall kept vs /\ lines_kept rest.
Proof.
  induction 1 as [ls|n ls _|n l ls ps vs rest _ Hp _ _ IH]; intros Hf Hl; [split; [constructor|exact Hl]..|].
  inversion Hl as [|? ? Hx Hls]; subst. destruct (IH Hf Hls). split; [|assumption]. constructor; [|assumption].
  apply row_ok; [exact Hf|]. eapply prims_ok; eauto.
Qed.
Lemma map_prims_ok ps : Forall (fun p => kept (TPrim p)) ps -> Forall kept (map TPrim ps).
Proof. induction 1; cbn [map]; constructor; auto. Qed.

Lemma read_ok :
  (forall d t ls m rest, member double strict blanks d t ls m rest -> Forall P t -> lines_kept ls -> member_kept m /\ lines_kept rest) /\
  (forall stop d ls ms rest, members double strict blanks stop d ls ms rest -> lines_kept ls -> Forall member_kept ms /\ lines_kept rest) /\
  (forall d h tail ls v rest, array double strict blanks d h tail ls v rest -> head_fine h -> Forall P tail -> lines_kept ls -> kept v /\ lines_kept rest) /\
  (forall d n ls vs rest, items double strict blanks d n ls vs rest -> lines_kept ls -> Forall kept vs /\ lines_kept rest) /\
  (forall d t ls v rest, item double strict blanks d t ls v rest -> Forall P t -> lines_kept ls -> kept v /\ lines_kept rest).
Proof.
  apply read_mutind.
  - intros d t ls h tail k q v rest Hh Hk _ IH Ht Hl. destruct (header_fine _ _ _ Hh Ht) as [[K1 K2] K3].
    destruct (IH (conj K1 K2) K3 Hl). split; [|assumption]. split; cbn [fst snd]; eauto.
  - intros d t ls k q r l ls' ms rest _ Hk _ _ _ _ IH Ht Hl. destruct (key_ok _ _ _ _ Hk Ht). destruct (IH Hl). split; [|assumption]. split; [assumption|now constructor].
  - intros d t ls k q r _ Hk _ _ Ht Hl. destruct (key_ok _ _ _ _ Hk Ht). split; [|exact Hl]. split; [assumption|constructor; constructor].
  - intros d t ls k q r p _ Hk _ Hp Ht Hl. destruct (key_ok _ _ _ _ Hk Ht). split; [|exact Hl]. split; [assumption|eapply prim_ok; eauto].
  - intros stop d ls _ Hl. split; [constructor|exact Hl].
  - intros stop d l ls m ls1 ms rest _ _ _ IHm _ IHs Hl. inversion Hl as [|? ? Hx Hls]; subst. destruct (IHm Hx Hls) as [K1 K2]. destruct (IHs K2).
    split; [constructor|]; assumption.
  - intros d h tail ls t ps Ht _ Hp _ _ Htl Hl. split; [|exact Hl]. constructor. apply map_prims_ok. eapply prims_ok; [exact Hp|]. eapply trims_ok; eauto.
  - intros d h tail ls fs vs used rest _ Hf _ Hr _ _ [_ Hh] _ Hl. destruct (rows_ok _ _ _ _ _ _ _ Hr (Hh _ Hf) Hl). split; [now constructor|assumption].
  - intros d h tail ls vs used rest _ _ _ IH _ _ _ _ Hl. destruct (IH Hl). split; [now constructor|assumption].
  - intros d ls Hl. split; [constructor|exact Hl].
  - intros d n ls _ Hl. split; [constructor|exact Hl].
  - intros d n l ls v ls1 vs rest _ _ IHi _ IHs Hl. inversion Hl as [|? ? Hx Hls]; subst. destruct (IHi Hx Hls) as [K1 K2]. destruct (IHs K2).
    split; [constructor|]; assumption.
  - intros d ls _ Hl. split; [constructor; constructor|exact Hl].
  - intros d t ls _ _ Hl. split; [constructor; constructor|exact Hl].
  - intros d t ls h tail v rest _ _ Hh _ IH Ht Hl. inversion Ht as [|? ? _ Ht']; subst. inversion Ht' as [|? ? _ Ht'']; subst.
    destruct (header_fine _ _ _ Hh Ht'') as [K1 K2]. auto.
  - intros d t ls m ls1 ms rest _ _ _ _ IHm _ IHs Ht Hl. inversion Ht as [|? ? _ Ht']; subst. inversion Ht' as [|? ? _ Ht'']; subst.
    destruct (IHm Ht'' Hl) as [K1 K2]. destruct (IHs K2). split; [|assumption]. constructor. constructor; assumption.
  - intros d t ls p _ _ _ Hp Ht Hl. inversion Ht as [|? ? _ Ht']; subst. inversion Ht' as [|? ? _ Ht'']; subst. split; [eapply prim_ok; eauto|exact Hl].
Qed.
Lemma root_ok ls v : root double strict blanks ls v -> lines_kept ls -> kept v.
Proof.
  destruct read_ok as (Hm & Hms & Ha & _).
  intros [|l ls' h tail v' rest _ _ Hh Har|l p _ _ Hp|l ls' m ls1 ms rest _ _ Hme Hmes] Hl.
  - constructor. constructor.
  - inversion Hl as [|? ? Hx Hls]; subst. destruct (header_fine _ _ _ Hh Hx) as [K1 K2]. exact (proj1 (Ha _ _ _ _ _ _ Har K1 K2 Hls)).
  - inversion Hl; subst. eapply prim_ok; eauto.
  - inversion Hl as [|? ? Hx Hls]; subst. destruct (Hm _ _ _ _ _ Hme Hx Hls) as [K1 K2]. destruct (Hms _ _ _ _ _ Hmes K2). constructor. constructor; assumption.
Qed.
Lemma scans_ok size n raws ls bs : scans strict size n raws ls bs -> Forall (Forall P) raws -> lines_kept ls.
Proof.
  induction 1 as [n|n raw raws ls bs _ _ IH|n k t d raws ls bs _ _ _ _ _ IH]; intros H; [constructor| |]; inversion H as [|? ? Hx Hr]; subst; [exact (IH Hr)|].
  constructor; [|exact (IH Hr)]. cbn [tl_text]. now apply Forall_app in Hx as [_ Hx].
Qed.
End Kept.

Lemma join_forall (P : char -> Prop) sep ls : Forall P (join sep ls) -> Forall (Forall P) ls.
Proof.
  induction ls as [|l ls IH]; intros H; [constructor|]. destruct ls as [|l' ls]; [constructor; [exact H|constructor]|].
  cbn [join] in *. apply Forall_app in H as [H1 H2]. inversion H2; subst. constructor; auto.
Qed.
Theorem reads_ok (P : char -> Prop) double strict size text tr : P cLF /\ P cCR /\ P cTAB -> reads double strict size text tr -> Forall P text ->
  kept P tr.
Proof.
  intros HP (raws & ls & bs & _ & -> & _ & Hs & Hr) H. apply join_forall in H. eapply root_ok; [exact HP|exact Hr|]. eapply scans_ok; eauto.
Qed.

(** * With path expansion *)

Section Expanded.
Variable P : char -> Prop.
Definition entry_ok (e : entry) : Prop := Forall (Forall P) (fst e) /\ (forall v, snd e = Some v -> spelled P v).
Lemma entries_ok v : spelled P v -> Forall entry_ok (entries v).
Proof.
  induction v as [p|l IH|l IH] using json_ind'; intros H.
  - constructor; [|constructor]. split; [constructor|]. intros v E. injection E as <-. exact H.
  - constructor; [|constructor]. split; [constructor|]. intros v E. injection E as <-. exact H.
  - inversion H as [| |? Hl]; subst. cbn [entries]. constructor; [split; [constructor|discriminate]|].
    apply Forall_forall. intros e He. apply in_flat_map in He as ([k x] & Hk & He). apply in_map_iff in He as (e' & <- & He').
    rewrite Forall_forall in IH, Hl. destruct (Hl _ Hk) as [Ha Hb]. specialize (IH _ Hk Hb). rewrite Forall_forall in IH.
    destruct (IH _ He') as [Hc Hd]. cbn [fst snd] in *. split; [|exact Hd]. cbn [under fst app]. constructor; assumption.
Qed.
Lemma below_ok k l : Forall entry_ok l -> Forall entry_ok (below k l).
Proof.
  induction 1 as [|[p v] l [Hp Hv] _ IH]; [constructor|]. unfold below. cbn [flat_map fst snd]. apply Forall_app. split; [|exact IH].
  destruct p as [|k' r]; [constructor|]. destruct (list_eq_dec _ k' k); [|constructor]. constructor; [|constructor].
  cbn [fst snd] in *. inversion Hp; subst. split; assumption.
Qed.
Lemma firsts_in hs ks : firsts hs ks -> forall k, In k ks -> In k hs.
Proof.
  induction 1 as [|hs ks k _ IH _|hs ks k _ IH _]; intros x Hx; [exact Hx| |].
  - apply in_or_app. apply in_app_or in Hx as [Hx|Hx]; [left; auto|now right].
  - apply in_or_app. left. auto.
Qed.
Lemma heads_ok l : Forall entry_ok l -> forall k, In k (heads l) -> Forall P k.
Proof.
  intros H k Hk. apply in_flat_map in Hk as ([p v] & He & Hk). rewrite Forall_forall in H. destruct (H _ He) as [Hp _]. cbn [fst] in *.
  destruct p as [|k' r]; [contradiction|]. destruct Hk as [<-|[]]. now inversion Hp.
Qed.
Lemma gathers_ok strict : forall l v, gathers strict l v -> Forall entry_ok l -> spelled P v.
Proof.
  fix IH 3. intros l v H Hl. destruct H as [l v _ _|l0 l es _ _ _ Hf Hes].
  - apply Forall_app in Hl as [_ Hl]. inversion Hl as [|? ? [_ Hv] _]; subst. now apply Hv.
  - apply Forall_app in Hl as [_ Hl]. constructor. pose proof (fun k Hk => heads_ok l Hl k (firsts_in _ _ Hf k Hk)) as Hk. clear Hf.
    induction Hes as [|[k x] es Hx _ IHes]; constructor.
    + split; [apply Hk; now left|]. eapply IH; [exact Hx|]. now apply below_ok.
    + apply IHes. intros k' Hk'. apply Hk. now right.
Qed.

Lemma dotted_ok k segs : dotted k segs -> Forall P k -> Forall (Forall P) segs.
Proof. intros H Hk. destruct H as (-> & _). now apply join_forall in Hk. Qed.
Lemma path_ok ms k p : key_path ms k p -> Forall P k -> Forall (Forall P) p.
Proof. intros [x _| _|segs _ Hd] Hk; [constructor; [exact Hk|constructor]..|]. eapply dotted_ok; eauto. Qed.
Lemma expands_ok strict : forall tr v, expands strict (tree_doc tr) v -> kept P tr -> spelled P v.
Proof.
  fix IH 1. intros tr v H Hk. destruct tr as [p|n l|ms]; cbn [tree_doc] in H; inversion H as [|? m F|? ls ? F G]; subst; inversion Hk as [? Hp|? ? Hl|? Hl]; subst.
  - now constructor.
  - constructor. clear H Hk. revert m F. induction l as [|x l IHl]; intros m F; inversion F; subst; constructor; inversion Hl; subst; eauto.
  - eapply gathers_ok; [exact G|]. constructor; [split; [constructor|discriminate]|]. clear G H Hk. revert F.
    generalize (map (fun m : str * bool * tree => (fst m, tree_doc (snd m))) ms) at 1. intros all F. revert ls F.
    induction ms as [|[kq x] ms IHms]; intros ls F; inversion F as [|? l ? ls' (p & y & Hp & Hy & ->) F']; subst; [constructor|].
    inversion Hl as [|? ? [Ha Hb] Hc]; subst. cbn [concat fst snd] in *. apply Forall_app. split; [|now apply IHms].
    pose proof (path_ok _ _ _ Hp Ha) as K1. pose proof (entries_ok _ (IH _ _ Hy Hb)) as K2.
    apply Forall_forall. intros e He. apply in_map_iff in He as (e' & <- & He'). rewrite Forall_forall in K2. destruct (K2 _ He') as [K3 K4].
    split; [|exact K4]. cbn [under fst]. apply Forall_app. split; assumption.
Qed.
End Expanded.
