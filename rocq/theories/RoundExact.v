(** The converse of the round trip: a written document is read back as the same value only if the
    value is portable. *)
From Verif Require Import Chars Floats Json JsonInd JsonEq Shared EncPrim Normalize Folding Encoders EncodeApi
  Scanner Parser DecValidation Decoders EventBuilder Expand DecodeApi Lex NumProof PrimProof ParseProof Spec DecRel DecProps
  DecRelax Layout LayEnc LayFacts TextProof ReadLex ReadHead ReadLine PropsHeader Checkers SpecRound
  ReadProof EncTotal WrittenProps RoundTrip ReplaceProof.
From Verif Require SpecText SpecRead.
From Coq Require Import Permutation.

Local Open Scope nat_scope.

(** * Lines that look like headers *)

Import SpecRead.

Lemma split_cut c s : In c s -> exists a b, cut c s a b.
Proof.
  intros H. destruct (first_split c s) as [Hn|(a & b & E & Ha)]; [contradiction|]. exists a, b. now split.
Qed.

Lemma before_both c d s a b a' b' : c <> d -> cut c s a b -> cut d s a' b' -> In c a' -> ~ In d a.
Proof.
  intros Hcd [E1 N1] [E2 N2] Hi Hd. rewrite E1 in E2. clear s E1. revert a' E2 N2 Hi.
  induction a as [|z a IH]; intros [|z' a'] E2 N2 Hi; cbn [app In] in *; try tauto.
  injection E2 as <- E2. destruct Hd as [->|Hd]; [tauto|].
  apply (IH ltac:(tauto) Hd a' E2); [tauto|]. destruct Hi as [->|Hi]; [tauto|auto].
Qed.

Lemma colon_tail s : colon_follows s -> exists f t, tail_parts s f t.
Proof.
  intros H. assert (Hc : In cCOLON s).
  { destruct H as [(m & t & -> & _)|[(m & f & t & -> & _ & _ & H)|(m & f & -> & _ & _ & H)]];
      rewrite ?in_app_iff; cbn [In]; rewrite ?in_app_iff; cbn [In]; tauto. }
  destruct (split_cut _ _ Hc) as (m & t & Hm). destruct (in_dec N.eq_dec cLBRACE m) as [Hi|Hi].
  2: { exists None, t. apply (tp_plain _ m); auto. }
  assert (Hb : In cLBRACE s) by (destruct Hm as [-> _]; rewrite in_app_iff; tauto).
  destruct (split_cut _ _ Hb) as (m1 & r1 & H1).
  assert (Hm1 : ~ In cCOLON m1).
  { exact (before_both cLBRACE cCOLON s m1 r1 m t ltac:(discriminate) H1 Hm Hi). }
  destruct (in_dec N.eq_dec cRBRACE r1) as [Hr|Hr].
  2: { exists None, t. apply (tp_plain _ m); auto. right. eauto. }
  destruct (split_cut _ _ Hr) as (f & r2 & H2).
  assert (H3 : In cCOLON r2).
  { destruct H1 as [E1 N1], H2 as [E2 N2].
    destruct H as [(x & y & E & Hx)|[(x & g & y & E & Hx & Hg & Hy)|(x & g & E & Hx & Hg & Hy)]].
    - exfalso. assert (C1 : cut cLBRACE s m1 r1) by now split. rewrite E in E1.
      clear - E1 Hx Hm1. revert x E1 Hx. induction m1 as [|z m1 IH]; intros [|z' x] E1 Hx; cbn [app] in E1.
      + discriminate.
      + injection E1 as -> _. apply Hx. now left.
      + injection E1 as <- _. apply Hm1. now left.
      + injection E1 as <- E1. cbn [In] in *. apply (IH ltac:(tauto) x E1). tauto.
    - destruct (cut_fun cLBRACE s m1 r1 x (g ++ cRBRACE :: y)) as [-> ->]; try now split.
      destruct (cut_fun cRBRACE (g ++ cRBRACE :: y) f r2 g y) as [-> ->]; auto; now split.
    - destruct (cut_fun cLBRACE s m1 r1 x g) as [-> ->]; try now split. contradiction. }
  destruct (split_cut _ _ H3) as (x & y & H4). exists (Some f), y. now apply (tp_fields _ m1 r1 f r2 x).
Qed.

Lemma colon_escape b : colon_follows b -> colon_follows (escape_string b ++ [cDQ]).
Proof.
  assert (E : forall c a r, escape_char c = [c] -> escape_string (a ++ c :: r) = escape_string a ++ c :: escape_string r).
  { intros c a r H. rewrite escape_app, escape_cons, H. reflexivity. }
  assert (Hin : forall s, In cCOLON s -> In cCOLON (escape_string s)).
  { intros s H. apply in_split in H as (x & y & ->). rewrite E by reflexivity. rewrite in_app_iff. right. now left. }
  intros [(m & t & -> & Hm)|[(m & f & t & -> & Hm & Hf & Ht)|(m & f & -> & Hm & Hf & Hc)]].
  - left. exists (escape_string m), (escape_string t ++ [cDQ]). rewrite E by reflexivity. rewrite <- app_assoc. split; auto.
    apply escape_not_in; auto; discriminate.
  - right. left. exists (escape_string m), (escape_string f), (escape_string t ++ [cDQ]).
    rewrite !E by reflexivity. rewrite <- app_assoc. cbn [app]. rewrite <- app_assoc. cbn [app].
    repeat split; try (apply escape_not_in; auto; discriminate). rewrite in_app_iff. left. auto.
  - right. right. exists (escape_string m), (escape_string f ++ [cDQ]). rewrite !E by reflexivity. rewrite <- app_assoc. cbn [app].
    repeat split; try (apply escape_not_in; auto; discriminate).
    + rewrite in_app_iff. intros [H|[H|[]]]; [|discriminate]. revert H. apply escape_not_in; auto; discriminate.
    + rewrite in_app_iff. left. auto.
Qed.

Section Exact.
Variable dl : char.
Hypothesis Hdl : std_delim dl.

(** A key with a primitive, read as a header, has something after the colon of the header. *)
Lemma frame_suffix s k len f t : frame s k len f t -> exists pre, s = pre ++ cCOLON :: t.
Proof.
  intros (r & after & Hh & [Hr _] & Ht). rewrite (head_length _ _ _ Hh), Hr.
  assert (X : exists x, after = x ++ cCOLON :: t).
  { destruct Ht as [m r1 g r2 x u [-> _] _ [-> _] [-> _]|m u [-> _] _]; [|eauto].
    exists (m ++ cLBRACE :: g ++ cRBRACE :: x). repeat (rewrite <- !app_assoc; cbn [app]). reflexivity. }
  destruct X as (x & ->). exists (k ++ cLBRACK :: len ++ cRBRACK :: x).
  repeat (rewrite <- !app_assoc; cbn [app]). reflexivity.
Qed.

Lemma tok_end t : tok dl t -> exists a x, t = a ++ [x] /\ is_ws x = false /\ x <> cCOLON.
Proof.
  intros H. pose proof (tok_nonempty _ _ H) as Hn. pose proof (tok_tight _ _ H) as Ht.
  destruct (list_last_cases t) as [->|(a & x & ->)]; [congruence|]. exists a, x. split; auto. split.
  - destruct (a ++ [x]) as [|c r] eqn:E; [now destruct a|]. destruct Ht as [_ Ht].
    rewrite <- E in Ht. now rewrite last_last in Ht.
  - inversion H as [u H1 H2 H3 H4 E|s E].
    + intros ->. rewrite Forall_forall in H3. specialize (H3 cCOLON). rewrite in_app_iff in H3. discriminate H3. right. now left.
    + unfold quoted in E. change (cDQ :: escape_string s ++ [cDQ]) with ((cDQ :: escape_string s) ++ [cDQ]) in E.
      apply app_inj_tail in E as [_ <-]. discriminate.
Qed.

Lemma prim_line_tail k p h t :
  is_header (encode_key k ++ cCOLON :: cSPACE :: encode_primitive p dl) h t -> ~ blank t.
Proof.
  intros [kk len f t1 key n dl' fs Hf _ _ _ _] Hb. apply frame_suffix in Hf as (pre & E).
  destruct (tok_end _ (encode_primitive_tok p dl Hdl)) as (a & x & Ex & Hx & Hc). rewrite Ex in E.
  destruct (list_last_cases t1) as [->|(b & y & ->)].
  - change (cCOLON :: cSPACE :: a ++ [x]) with ((cCOLON :: cSPACE :: a) ++ [x]) in E. rewrite app_assoc in E.
    apply app_inj_tail in E as [_ E]. contradiction.
  - change (cCOLON :: cSPACE :: a ++ [x]) with ((cCOLON :: cSPACE :: a) ++ [x]) in E.
    change (cCOLON :: b ++ [y]) with ((cCOLON :: b) ++ [y]) in E. rewrite !app_assoc in E.
    apply app_inj_tail in E as [_ <-]. unfold blank in Hb. rewrite Forall_app in Hb. destruct Hb as [_ Hb].
    inversion Hb; subst. congruence.
Qed.

(** A string that looks like a header under a bare key is taken for one. *)
Lemma length_escape n : length_like n -> escape_string n = n /\ exists m d, frame_length n m d.
Proof.
  intros (sg & ds & suf & -> & Hsg & Hne & Hd & Hv & Hsuf). split.
  - assert (Hall : forall c, In c (sg ++ ds ++ suf) -> escape_char c = [c]).
    { intros c Hc. rewrite !in_app_iff in Hc. destruct Hc as [Hc|[Hc|Hc]].
      - destruct Hsg as [->| ->]; [easy|]. destruct Hc as [<-|[]]. reflexivity.
      - rewrite Forall_forall in Hd. apply Hd in Hc. destruct (escape_char_cases c) as [(x & _ & _ & Hx & _)|(E & _)]; auto.
        exfalso. destruct Hx as [->|[->|[->|[->| ->]]]]; vm_compute in Hc; destruct Hc as [Y Z]; try (now apply Y); now apply Z.
      - destruct Hsuf as [->| ->]; [easy|]. destruct Hc as [<-|[]]. reflexivity. }
    induction (sg ++ ds ++ suf) as [|c s IH]; [reflexivity|]. rewrite escape_cons, Hall by now left.
    cbn [app]. f_equal. apply IH. intros x Hx. apply Hall. now right.
  - exists (digits_value ds), (match suf with [] => cCOMMA | _ => cPIPE end). apply fl_intro; auto.
    + split; auto.
    + destruct Hsuf as [->| ->]; auto.
Qed.

Lemma header_like_quoted s : header_like s -> encode_primitive (PStr s) dl = quoted s.
Proof.
  intros (a & n & b & -> & _). cbn [encode_primitive]. unfold encode_string_literal.
  assert (E : is_safe_unquoted (a ++ cLBRACK :: n ++ cRBRACK :: b) dl = false).
  { apply safe_spec. do 5 right. left. exists cLBRACK. split; [rewrite in_app_iff; right; now left|]. cbn. tauto. }
  rewrite E. reflexivity.
Qed.

Lemma header_like_misread k s : bare_key k -> header_like s ->
  ~ plain (encode_key k ++ cCOLON :: cSPACE :: encode_primitive (PStr s) dl).
Proof.
  intros Hk Hs. rewrite (header_like_quoted s Hs).
  destruct Hs as (a & n & b & -> & Ha & Hn & Hc). destruct (length_escape n Hn) as (En & m & d & Hl).
  destruct (colon_tail _ (colon_escape b Hc)) as (f & t & Ht).
  apply valid_key_spec in Hk as Ev. rewrite encode_key_plain by auto.
  set (K := k ++ cCOLON :: cSPACE :: cDQ :: escape_string a).
  set (s := k ++ cCOLON :: cSPACE :: quoted (a ++ cLBRACK :: n ++ cRBRACK :: b)).
  assert (Es : s = K ++ cLBRACK :: n ++ cRBRACK :: escape_string b ++ [cDQ]).
  { unfold s, K, quoted. rewrite escape_app, escape_cons, escape_app, escape_cons, En.
    change (escape_char cLBRACK) with [cLBRACK]. change (escape_char cRBRACK) with [cRBRACK].
    repeat (rewrite <- !app_assoc; cbn [app]). reflexivity. }
  destruct Hk as (c0 & k0 & Ek & Hc0 & _).
  assert (W : is_ws c0 = false /\ c0 <> cDQ).
  { rewrite Ek in Ev. pose proof (valid_key_chars _ Ev) as [_ F]. inversion F as [|? ? F1 _]; subst. apply ident_char in F1. tauto. }
  assert (F : frame s K n f t).
  { exists (n ++ cRBRACK :: escape_string b ++ [cDQ]), (escape_string b ++ [cDQ]). split; [|split; auto].
    - apply he_bare.
      + intros (w & r & E & Hw). unfold s in E. rewrite Ek in E. destruct w as [|x w]; cbn [app] in E.
        * injection E as E _. tauto.
        * injection E as -> _. inversion Hw; subst. destruct W. congruence.
      + split; [exact Es|]. unfold K. rewrite in_app_iff. cbn [In]. intros [H|[H|[H|[H|H]]]]; try discriminate H.
        * now apply valid_key_not_in in H.
        * revert H. apply escape_not_in; auto; discriminate.
    - split; [reflexivity|]. intros H. destruct Hn as (sg & ds & suf & -> & Hsg & _ & Hd & _ & Hsuf).
      rewrite !in_app_iff in H. destruct H as [H|[H|H]].
      + destruct Hsg as [->| ->]; cbn in H; intuition discriminate.
      + rewrite Forall_forall in Hd. apply Hd in H. vm_compute in H. destruct H as [_ H]. now apply H.
      + destruct Hsuf as [->| ->]; cbn in H; intuition discriminate. }
  intros [Hp|(h & tail & Hp & Hh)].
  - apply (no_header_frame _ _ _ _ _ F) in Hp as [_ Hp]. now apply (Hp m d).
  - destruct Hp as [k' l' f' t' key' n' dl' fs' Hf' Hk' _ _ _]. cbn in Hh. subst key'.
    destruct (frame_fun _ _ _ _ _ _ _ _ _ F Hf') as (<- & _). inversion Hk' as [Hb| |]; subst.
    unfold K in Hb. cbn [app] in Hb. inversion Hb; subst. destruct W. congruence.
Qed.

(** * Headers the encoder writes *)

Lemma format_colon n key fields tail : exists after,
  format_header n key fields dl ++ tail =
    (ParseProof.key_text key ++ cLBRACK :: (dec_of_N (N.of_nat n) ++ delim_suffix dl) ++ [cRBRACK]) ++ after /\ colon_follows after.
Proof.
  rewrite format_header_eq. exists (fields_text fields dl ++ cCOLON :: tail). split.
  - repeat (rewrite <- !app_assoc; cbn [app]). reflexivity.
  - destruct fields as [fs|]; cbn [fields_text]; [|left; exists [], tail; auto].
    right. left. set (J := join dl (map encode_key fs)).
    destruct (first_split cRBRACE J) as [Hn|(f & t & E & Hf)].
    + exists [], J, (cCOLON :: tail). cbn [app In]. rewrite <- app_assoc. auto 6.
    + exists [], f, (t ++ [cRBRACE] ++ cCOLON :: tail). cbn [app In]. rewrite E. rewrite <- !app_assoc. cbn [app].
      rewrite <- ?app_assoc. cbn [app]. repeat split; auto. rewrite in_app_iff. right. right. now left.
Qed.

(** Too long for the decoder, but not too long for a 64-bit number. *)
Lemma long_header n key fields tail : (100000000 < N.of_nat n)%N -> (N.of_nat n < 2 ^ 64)%N ->
  exists e, parse_array_header_line (format_header n key fields dl ++ tail) DEFAULT_DELIMITER = Err e.
Proof.
  intros Hn Hn'. destruct (format_colon n key fields tail) as (after & E & Hc).
  set (K := ParseProof.key_text key) in *. set (B := dec_of_N (N.of_nat n) ++ delim_suffix dl) in *.
  set (P := K ++ cLBRACK :: B ++ [cRBRACK]) in *.
  assert (EP : P ++ after = K ++ cLBRACK :: B ++ cRBRACK :: after).
  { unfold P. repeat (rewrite <- !app_assoc; cbn [app]). reflexivity. }
  assert (HP : S (length K + S (length B)) = length P).
  { unfold P. rewrite app_length. cbn [length]. rewrite app_length. cbn [length]. lia. }
  rewrite E. unfold parse_array_header_line.
  assert (EB : bracket_start_of (P ++ after) = Ok (Some (length K))) by (rewrite EP; apply bracket_start_key).
  rewrite EB. cbn [bind].
  assert (ER : find_from cRBRACK (length K) (P ++ after) = Some (length K + S (length B))).
  { rewrite EP, find_from_app by auto. cbn [find_char N.eqb Pos.eqb]. rewrite find_char_app; [reflexivity|].
    intros H. apply bracket_in in H; tauto. }
  rewrite ER. pose proof (colon_spec P after (length K + S (length B)) dl HP) as Hcs.
  destruct (header_colon (P ++ after) (length K + S (length B))) as [ci|].
  2: { destruct (colon_tail _ Hc) as (f & t & Ht). now destruct (Hcs f t). }
  rewrite EP. unfold K at 1 2. rewrite header_key_ok. cbn [bind].
  replace (slice (S (length K)) (length K + S (length B)) (K ++ cLBRACK :: B ++ cRBRACK :: after)) with B.
  2: { change (K ++ cLBRACK :: B ++ cRBRACK :: after) with (K ++ [cLBRACK] ++ B ++ cRBRACK :: after).
       rewrite app_assoc. symmetry. apply slice_app; rewrite app_length; cbn [length]; lia. }
  unfold B. rewrite parse_bracket_ok by (auto; unfold USIZE_MAX; lia).
  replace (MAX_DECLARED_ARRAY_LENGTH <? N.of_nat n)%N with true by (unfold MAX_DECLARED_ARRAY_LENGTH; lia). eauto.
Qed.

(** What is read from a written header, if anything is. *)
Lemma written_header n key fields tail : (N.of_nat n < 2 ^ 64)%N ->
  let s := format_header n key fields dl ++ tail in
  ~ no_header s /\
  forall h t, is_header s h t ->
    (N.of_nat n <= 100000000)%N /\ no_rbrace fields /\
    option_map fst (hl_key h) = key /\ hl_length h = N.of_nat n /\
    (fields = None -> hl_fields h = None) /\
    (forall fs, fields = Some fs -> exists gs, hl_fields h = Some gs /\ length gs = length fs) /\
    trim t = trim tail.
Proof.
  intros Hn s. subst s. destruct (N.leb_spec (N.of_nat n) 100000000) as [Hs|Hl].
  2: { destruct (long_header n key fields tail Hl Hn) as (e & E). split.
       - intros H. apply header_none in H. discriminate (eq_trans (eq_sym H) E).
       - intros h t H. apply header_some in H. discriminate (eq_trans (eq_sym H) E). }
  assert (Hdec : no_rbrace fields \/ exists fs, fields = Some fs /\ exists f, In f fs /\ In cRBRACE f).
  { destruct fields as [fs|]; [|now left]. cbn. induction fs as [|f fs IH]; [left; constructor|].
    destruct (in_dec N.eq_dec cRBRACE f) as [Hf|Hf].
    - right. exists (f :: fs). split; auto. exists f. split; auto. now left.
    - destruct IH as [IH|(gs & E & g & H1 & H2)].
      + left. now constructor.
      + injection E as ->. right. exists (f :: gs). split; auto. exists g. split; auto. now right. }
  destruct Hdec as [Hf|(fs & -> & Hf)].
  2: { pose proof (brace_header n key fs dl tail Hdl Hs Hf) as E. split.
       - intros H. apply header_none in H. discriminate (eq_trans (eq_sym H) E).
       - intros h t H. apply header_some in H. discriminate (eq_trans (eq_sym H) E). }
  pose proof (parse_header_ok n key fields dl tail Hdl Hs Hf) as E. split.
  - intros H. apply header_none in H. discriminate (eq_trans (eq_sym H) E).
  - intros h t H. apply header_some in H. apply (eq_trans (eq_sym E)) in H. injection H as H0 _ H4 _ H1 H2.
    split; [exact Hs|]. split; [exact Hf|]. split; [auto|]. split; [auto|]. split; [|split].
    + intros ->. destruct (hl_fields h); [discriminate H1|reflexivity].
    + intros fs ->. destruct (hl_fields h) as [gs|]; [|discriminate H1]. exists gs. split; auto.
      cbn in H1. injection H1 as H1. apply (f_equal (@length _)) in H1. now rewrite !map_length in H1.
    + unfold inline_of in H2. destruct (is_empty (trim tail)) eqn:E1, (is_empty (trim t)) eqn:E2; try discriminate H2.
      * apply is_empty_true in E1, E2. congruence.
      * now injection H2.
Qed.

(** * Counting arrays *)

Fixpoint total (l : list nat) : nat := match l with [] => 0 | x :: r => x + total r end.
Fixpoint arrays (v : json) : nat :=
  match v with
  | JPrim _ => 0
  | JArr l => S (total (map arrays l))
  | JObj l => total (map (fun kv => arrays (snd kv)) l)
  end.
Fixpoint tarrays (v : tree) : nat :=
  match v with
  | TPrim _ => 0
  | TArr _ l => S (total (map tarrays l))
  | TObj l => total (map (fun m => tarrays (snd m)) l)
  end.
Lemma tree_arrays v : arrays (tree_json v) = tarrays v.
Proof.
  revert v. fix IH 1. intros [p|n l|l]; cbn [tree_json arrays tarrays]; auto.
  - f_equal. f_equal. rewrite map_map. induction l as [|v l IHl]; cbn [map]; [reflexivity|]. now rewrite IH, IHl.
  - f_equal. rewrite map_map. cbn [snd]. induction l as [|[k v] l IHl]; cbn [map snd]; [reflexivity|]. now rewrite IH, IHl.
Qed.
Lemma jequiv_arrays v : forall w, jequiv v w -> arrays v = arrays w.
Proof.
  induction v using json_ind'; intros w Hw; inversion Hw as [|? m F|? l' m P F]; subst; cbn [arrays]; auto.
  - f_equal. f_equal. clear Hw. induction F; cbn [map]; auto. inversion H; subst. f_equal; auto.
  - assert (H' : Forall (fun kv => forall w, jequiv (snd kv) w -> arrays (snd kv) = arrays w) l').
    { rewrite Forall_forall in *. intros x Hx. apply H. eapply Permutation_in; [apply Permutation_sym; eauto|auto]. }
    transitivity (total (map (fun kv => arrays (snd kv)) l')).
    + clear - P. induction P; cbn [map total]; lia.
    + clear - F H'. induction F as [|a b l m [E R] F IH]; cbn [map]; auto. inversion H'; subst. cbn [total]. f_equal; auto.
Qed.

(** * Reading written lines *)

Variable strict : bool.
Variable blanks : list nat.
Variable fdepth : N.

Notation rmember := (member parse_f64 strict blanks).
Notation rmembers := (members parse_f64 strict blanks).
Notation rarray := (array parse_f64 strict blanks).
Notation ritems := (items parse_f64 strict blanks).
Notation ritem := (item parse_f64 strict blanks).

Definition al (l : tline) : nat * str := (tl_depth l, tl_text l).
(** The next line, if any, is at depth at most [d], or less than [d]. *)
Definition low (d : nat) (rest : list tline) : Prop := forall l r, rest = l :: r -> tl_depth l <= d.
Definition under (d : nat) (rest : list tline) : Prop := forall l r, rest = l :: r -> tl_depth l < d.

Definition member_fine' (k : str) (v : json) : Prop := forall s, v = JPrim (PStr s) -> bare_key k -> ~ header_like s.

Definition X_value (d : nat) (k : str) (v : json) (abs : list (nat * str)) : Prop :=
  fits v -> distinct_keys v -> exists t a, abs = (d, t) :: a /\ key_content t /\ is_key_value_line t = true /\
    forall ls rest m rest', map al ls = a -> low d rest -> rmember d t (ls ++ rest) m rest' ->
      rest' = rest /\ arrays v <= tarrays (snd m) /\
      (arrays v = tarrays (snd m) -> portable_at true v /\ member_fine' k v).
Definition X_members (d : nat) (l : list (str * json)) (abs : list (nat * str)) : Prop :=
  Forall (fun kv => fits (snd kv)) l -> Forall (fun kv => distinct_keys (snd kv)) l ->
  (l = [] -> abs = []) /\ (l <> [] -> exists t a, abs = (d, t) :: a /\ key_content t /\ is_key_value_line t = true) /\
  forall ls rest stop ms rest', map al ls = abs -> under d rest -> rmembers stop d (ls ++ rest) ms rest' ->
    rest' = rest /\ total (map (fun kv => arrays (snd kv)) l) <= total (map (fun m => tarrays (snd m)) ms) /\
    (total (map (fun kv => arrays (snd kv)) l) = total (map (fun m => tarrays (snd m)) ms) ->
     Forall (fun kv => portable_at true (snd kv)) l /\ Forall (fun kv => member_fine' (fst kv) (snd kv)) l).
Definition X_array (t : bool) (key : option str) (d : nat) (l : list json) (abs : list (nat * str)) : Prop :=
  fits (JArr l) -> distinct_keys (JArr l) -> exists tx a, abs = (d, tx) :: a /\
    (exists n fields tl, tx = format_header n key fields dl ++ tl /\ (N.of_nat n < 2 ^ 64)%N) /\
    forall ls rest h tail v rest', map al ls = a -> low d rest -> is_header tx h tail ->
      rarray d h tail (ls ++ rest) v rest' ->
      rest' = rest /\ arrays (JArr l) <= tarrays v /\ (arrays (JArr l) = tarrays v -> portable_at t (JArr l)).
Definition X_items (d : nat) (l : list json) (abs : list (nat * str)) : Prop :=
  Forall fits l -> Forall distinct_keys l ->
  (l = [] -> abs = []) /\ (l <> [] -> exists t a, abs = (d, t) :: a) /\
  forall ls rest vs rest', map al ls = abs -> under d rest -> ritems d (N.of_nat (length l)) (ls ++ rest) vs rest' ->
    rest' = rest /\ total (map arrays l) <= total (map tarrays vs) /\
    (total (map arrays l) = total (map tarrays vs) -> Forall (portable_at false) l).
Definition X_item (d : nat) (v : json) (abs : list (nat * str)) : Prop :=
  fits v -> distinct_keys v -> exists t a, abs = (d, t) :: a /\ (t = [cMINUS] \/ hyphen t) /\
    forall ls rest w rest', map al ls = a -> low d rest -> ritem d t (ls ++ rest) w rest' ->
      rest' = rest /\ arrays v <= tarrays w /\ (arrays v = tarrays w -> portable_at false v).

Lemma key_content_facts t : key_content t ->
  unquoted cCOLON t /\ ~ begins cLBRACK t /\ ~ blank t /\ ~ hyphen t.
Proof.
  intros (H1 & H2 & H3 & H4). assert (U : unquoted cCOLON t).
  { now apply key_value_spec. }
  split; auto. split; [|split].
  - intros Hb. apply array_content_not in H2. tauto.
  - intros Hb. apply H3. now apply blank_trim.
  - now apply hyphen_not.
Qed.

Lemma map_al_app ls a b : map al ls = a ++ b -> exists la lb, ls = la ++ lb /\ map al la = a /\ map al lb = b.
Proof. intros H. apply map_eq_app in H as (la & lb & -> & H1 & H2). eauto. Qed.
Lemma map_al_cons ls x b : map al ls = x :: b -> exists l lb, ls = l :: lb /\ al l = x /\ map al lb = b.
Proof. destruct ls as [|l ls]; [discriminate|]. intros H. injection H as H1 H2. eauto. Qed.

Lemma key_line_written k rest k' q r : key_line (encode_key k ++ cCOLON :: rest) k' q r -> r = rest.
Proof.
  intros H. apply key_complete in H as (e & E & <-). rewrite parse_key_token_ok in E. injection E as _ <- _.
  change (encode_key k ++ cCOLON :: rest) with (encode_key k ++ [cCOLON] ++ rest). rewrite app_assoc.
  apply skipn_app_exact. rewrite app_length. cbn. lia.
Qed.

Lemma key_line_no_header k h t : ~ is_header (encode_key k ++ [cCOLON]) h t.
Proof. intros H. apply header_some in H. discriminate (eq_trans (eq_sym H) (no_header_key k DEFAULT_DELIMITER)). Qed.

Lemma rows_exact dd fs d ls : forall n rest vs rest', Forall (fun l => tl_depth l = d) ls -> n = N.of_nat (length ls) ->
  under d rest -> rows parse_f64 strict dd fs d n (ls ++ rest) vs rest' -> rest' = rest.
Proof.
  induction ls as [|l ls IH]; intros n rest vs rest' Hl Hn Hr H; cbn [app length] in *.
  - inversion H as [|? ? He|? ? ? ? ? ? Hd]; subst; auto. lia.
  - inversion Hl as [|? ? Hd Hl']; subst. inversion H as [? E|? ? He|? ? ? ? ? ? Hd Hp Hs Hm]; subst; try lia.
    + exfalso. now apply (He l (ls ++ rest)).
    + refine (IH _ _ _ _ Hl' _ Hr Hm). lia.
Qed.

Lemma space_nonblank p : ~ blank (cSPACE :: encode_primitive p dl).
Proof.
  intros H. destruct (encode_primitive_first p dl Hdl) as (c & r & E & Hc). rewrite E in H.
  inversion H as [|? ? _ H']; subst. inversion H'; subst. congruence.
Qed.

Lemma prim_exact d k p kt t : SpecText.key_text k kt -> SpecText.token f64_to_string dl p t ->
  X_value d k (JPrim p) [(d, kt ++ cCOLON :: cSPACE :: t)].
Proof.
  intros Hk Ht _ _. apply key_text_spec in Hk. apply token_spec in Ht. subst kt t.
  eexists _, []. split; [reflexivity|]. split; [apply key_content_colon|]. split; [apply key_value_line|].
  intros ls rest m rest' Hl Hr H. destruct ls; [|discriminate]. cbn [app] in H. cbn [arrays].
  inversion H as [? ? ? h tail k' q v rest0 Hh Hkk Ha|? ? ? k' q r l ls' ms rest0 Hp Hkl Hb|? ? ? k' q r Hp Hkl Hb|? ? ? k' q r p' Hp Hkl Hb Hpp]; subst.
  - pose proof (prim_line_tail _ _ _ _ Hh) as Hb. inversion Ha; subst; try contradiction. cbn [snd tarrays]. split; auto. split; lia.
  - apply key_line_written in Hkl as ->. now apply space_nonblank in Hb.
  - apply key_line_written in Hkl as ->. now apply space_nonblank in Hb.
  - cbn [snd tarrays]. split; auto. split; auto. intros _. split; [constructor|].
    intros s E Hbk Hhl. injection E as ->. revert Hp. now apply header_like_misread.
Qed.

Lemma under_low d rest : under (S d) rest <-> low d rest.
Proof. split; intros H l r E; specialize (H l r E); lia. Qed.

Lemma obj_exact d k l kt ls : SpecText.key_text k kt -> X_members (S d) l ls ->
  X_value d k (JObj l) ((d, kt ++ [cCOLON]) :: ls).
Proof.
  intros Hk IH Hf Hd. apply key_text_spec in Hk. subst kt.
  inversion Hf as [| |? Hf']; inversion Hd as [| |? _ Hd']; subst. destruct (IH Hf' Hd') as (IH0 & IH1 & IH2).
  eexists _, ls. split; [reflexivity|]. split; [apply key_content_colon|]. split; [apply key_value_line|].
  intros ts rest m rest' Hl Hr H. cbn [arrays].
  inversion H as [? ? ? h tail k' q v rest0 Hh Hkk Ha|? ? ? k' q r l0 ls' ms rest0 Hp Hkl Hb El Hdp Hm|? ? ? k' q r Hp Hkl Hb He|? ? ? k' q r p' Hp Hkl Hb Hpp]; subst.
  - now apply key_line_no_header in Hh.
  - destruct l as [|kv l].
    + destruct ts; [|specialize (IH0 eq_refl); discriminate]. cbn [app] in El. apply Hr in El. lia.
    + destruct IH1 as (t & a & E & _); [discriminate|]. apply map_al_cons in E as (l1 & lb & -> & E & _).
      cbn [app] in El. injection El as <- _. injection E as E1 E2. rewrite E1 in Hm.
      apply IH2 in Hm as (-> & H1 & H2); auto; [|now apply under_low].
      cbn [snd tarrays]. split; auto. split; auto. intros E. destruct (H2 E) as [P1 P2].
      split; [now constructor|intros s Es; discriminate].
  - destruct l as [|kv l].
    + destruct ts; [|specialize (IH0 eq_refl); discriminate]. cbn. split; auto. split; auto. intros _. split; [repeat constructor|discriminate].
    + destruct IH1 as (t & a & E & _); [discriminate|]. apply map_al_cons in E as (l1 & lb & -> & E & _).
      injection E as E1 E2. exfalso. apply (He l1 (lb ++ rest)); [reflexivity|lia].
  - apply key_line_written in Hkl as ->. destruct Hb. constructor.
Qed.

Lemma arr_exact d k l ls : X_array true (Some k) d l ls -> X_value d k (JArr l) ls.
Proof.
  intros IH Hf Hd. destruct (IH Hf Hd) as (tx & a & -> & (n & fields & tl & -> & Hn) & IH').
  eexists _, a. split; [reflexivity|]. split; [now apply key_content_header|]. split; [apply key_value_line_header|].
  intros ts rest m rest' Hl Hr H.
  destruct (written_header n (Some k) fields tl Hn) as [Hno Hh'].
  assert (NP : ~ plain (format_header n (Some k) fields dl ++ tl)).
  { intros [Hp|(h & t & Hp & E)]; [now apply Hno|]. apply Hh' in Hp as (_ & _ & Hk & _). rewrite E in Hk. discriminate. }
  inversion H as [? ? ? h tail k' q v rest0 Hh Hkk Ha|? ? ? k' q r l0 ls' ms rest0 Hp Hkl Hb El Hdp Hm|? ? ? k' q r Hp Hkl Hb He|? ? ? k' q r p' Hp Hkl Hb Hpp]; subst;
    try contradiction.
  destruct (IH' ts rest h tail v rest' eq_refl Hr Hh Ha) as (H1 & H2 & H3). cbn [snd]. split; auto. split; auto.
  intros E. split; auto. intros s Es. discriminate.
Qed.

Lemma members_exact d k v l a b : X_value d k v a -> X_members d l b -> X_members d ((k, v) :: l) (a ++ b).
Proof.
  intros IH1 IH2 Hf Hd. inversion Hf as [|? ? Hf1 Hf2]; inversion Hd as [|? ? Hd1 Hd2]; subst. cbn [snd] in *.
  destruct (IH1 Hf1 Hd1) as (t & a' & -> & Hkc & Hkl & IH1'). destruct (IH2 Hf2 Hd2) as (IHn & IHc & IH2'). clear IH1 IH2.
  split; [discriminate|]. split; [intros _; cbn [app]; eauto|].
  intros ls rest stop ms rest' Hl Hu H. apply map_al_app in Hl as (la & lb & -> & Ha & Hb).
  apply map_al_cons in Ha as (l1 & la' & -> & E & Ha). injection E as E1 E2. rewrite <- app_assoc in H. cbn [app] in H.
  destruct (key_content_facts t Hkc) as (_ & _ & _ & Hh).
  inversion H as [? ? ? He|? ? ? ? m ls1 ms' rest0 Hdp Hst Hm Hms]; subst.
  { exfalso. apply (He l1 (la' ++ lb ++ rest)); [reflexivity|]. split; auto. intros [_ X]. contradiction. }
  assert (Hlow : low (tl_depth l1) (lb ++ rest)).
  { intros x r E. destruct l as [|kv l].
    - destruct lb; [|specialize (IHn eq_refl); discriminate]. cbn [app] in E. specialize (Hu x r E). lia.
    - destruct IHc as (t' & a & Eb & _); [discriminate|]. apply map_al_cons in Eb as (l2 & lb' & -> & E' & _).
      cbn [app] in E. injection E as <- _. injection E' as E' _. lia. }
  destruct (IH1' la' (lb ++ rest) m ls1 eq_refl Hlow Hm) as (-> & A1 & A2).
  destruct (IH2' lb rest stop ms' rest' eq_refl Hu Hms) as (-> & B1 & B2).
  cbn [map total snd]. split; auto. split; [lia|]. intros E.
  destruct A2 as [A2 A3]; [lia|]. destruct B2 as [B2 B3]; [lia|]. split; constructor; auto.
Qed.

Lemma tabular_flat l fields : tabular l fields -> total (map arrays l) = 0.
Proof.
  intros (_ & _ & H). induction H as [|v l (es & -> & _ & Hv) _ IH]; [reflexivity|]. cbn [map total arrays]. rewrite IH.
  assert (X : total (map (fun kv : str * json => arrays (snd kv)) es) = 0).
  { clear - Hv. induction Hv as [|kv es (p & E) _ IH]; [reflexivity|]. cbn [map total]. now rewrite E, IH. }
  lia.
Qed.
Lemma blank_of_trim t s : trim t = trim s -> (blank t <-> blank s).
Proof. intros E. now rewrite !blank_trim, E. Qed.

Lemma items_zero d ls vs rest : ritems d 0 ls vs rest -> rest = ls.
Proof. intros H. inversion H; subst; auto. lia. Qed.

Lemma empty_exact t key d h : SpecText.header dl key 0 None h -> X_array t key d [] [(d, h)].
Proof.
  intros Hh _ _. apply header_spec in Hh. subst h. eexists _, []. split; [reflexivity|]. split.
  { exists 0, None, []. rewrite app_nil_r. split; auto. reflexivity. }
  intros ls rest h tail v rest' Hl Hr Hh H. destruct ls; [|discriminate]. cbn [app] in H.
  rewrite <- (app_nil_r (format_header _ _ _ _)) in Hh.
  apply written_header in Hh as (_ & _ & _ & Hlen & Hf & _ & Ht); [|reflexivity]. specialize (Hf eq_refl). cbn in Hlen.
  assert (Hb : blank tail) by (apply (blank_of_trim _ _ Ht); constructor).
  cbn [arrays map total]. split; [|split].
  - inversion H as [? ? ? ? t0 ps Htr Hne|? ? ? ? fs vs used rest0 _ Hfs|? ? ? ? vs used rest0 _ _ Hi]; subst; auto; [congruence|].
    rewrite Hlen in Hi. now apply items_zero in Hi.
  - inversion H; subst; cbn [tarrays]; lia.
  - intros _. apply po_list; [cbn; lia| |constructor]. intros _ fields (_ & (f & r & E & _) & _). discriminate.
Qed.

Lemma inline_exact t key d p ps h r : SpecText.header dl key (S (length ps)) None h ->
  SpecText.row f64_to_string dl (p :: ps) r -> X_array t key d (map JPrim (p :: ps)) [(d, h ++ cSPACE :: r)].
Proof.
  intros Hh Hr0 Hf _. apply header_spec in Hh. apply row_spec in Hr0. subst h r.
  assert (Hn : (N.of_nat (S (length ps)) < 2 ^ 64)%N).
  { inversion Hf as [|? Hn _|]; subst. cbn [length map] in Hn. now rewrite map_length in Hn. }
  eexists _, []. split; [reflexivity|]. split; [eauto 6|].
  intros ls rest h tail v rest' Hl Hr Hh H. destruct ls; [|discriminate]. cbn [app] in H.
  apply written_header in Hh as (Hcap & _ & _ & Hlen & Hfs & _ & Ht); [|exact Hn].
  assert (Hb : ~ blank tail).
  { intros Hb. apply (blank_of_trim _ _ Ht) in Hb. inversion Hb as [|? ? _ Hb']; subst.
    destruct (row_text_tight (p :: ps) dl Hdl) as [Htt Hne]; [discriminate|].
    destruct (encode_and_join_primitives (p :: ps) dl) as [|c s]; [congruence|]. destruct Htt as [Hc _]. inversion Hb'; subst. congruence. }
  assert (E0 : total (map arrays (map JPrim (p :: ps))) = 0).
  { clear. induction (p :: ps) as [|q l IH]; [reflexivity|]. cbn [map total arrays]. exact IH. }
  cbn [arrays]. rewrite E0. inversion H; subst; try contradiction. split; auto. split; [cbn [tarrays]; lia|].
  intros _. apply po_list.
  - rewrite map_length. exact Hcap.
  - intros _ fields (_ & (f & r & E & _) & _). discriminate.
  - clear. induction (p :: ps); constructor; auto. constructor.
Qed.

Lemma table_exact key d l fields rows0 h ts : SpecText.table l fields rows0 ->
  SpecText.header dl key (length l) (Some fields) h -> Forall2 (SpecText.row f64_to_string dl) rows0 ts ->
  X_array true key d l ((d, h) :: map (fun t => (S d, t)) ts).
Proof.
  intros Ht0 Hh Hrows Hf Hd. apply header_spec in Hh. subst h.
  inversion Hf as [|? Hn _|]; inversion Hd as [|? Hd'|]; subst.
  assert (T : tabular l fields) by (apply table_ok; auto; apply table_spec; eauto).
  assert (Hlen0 : length ts = length l).
  { destruct Ht0 as (_ & _ & Hr0). rewrite (Forall2_length' _ _ _ Hrows). now apply (Forall2_length' _ _ _ Hr0). }
  eexists _, _. split; [reflexivity|]. split.
  { exists (length l), (Some fields), []. rewrite app_nil_r. auto. }
  intros ls rest h tail v rest' Hl Hr Hh H. rewrite <- (app_nil_r (format_header _ _ _ _)) in Hh.
  apply written_header in Hh as (Hcap & Hbr & _ & Hlen & _ & Hfs & Ht); [|exact Hn].
  destruct (Hfs fields eq_refl) as (gs & Hg & Lg).
  assert (Hb : blank tail) by (apply (blank_of_trim _ _ Ht); constructor).
  assert (Hall : Forall (fun l => tl_depth l = S d) ls).
  { clear - Hl. revert ls Hl. induction ts as [|t ts IH]; intros [|x ls] Hl; try discriminate; constructor.
    - injection Hl as Hl _. auto. 
    - injection Hl as _ _ Hl. auto. }
  assert (Hll : length ls = length l).
  { apply (f_equal (@length _)) in Hl. rewrite !map_length in Hl. congruence. }
  cbn [arrays]. rewrite (tabular_flat _ _ T).
  inversion H as [? ? ? ? t0 ps Htr Hne|? ? ? ? fs vs used rest0 _ Hfs' Hne Hrw|? ? ? ? vs used rest0 _ Hfs' Hi]; subst.
  - exfalso. apply Hne. apply trims_spec in Htr. apply blank_trim in Hb. congruence.
  - split; [|split; [cbn [tarrays]; lia|]].
    + eapply (rows_exact _ _ (S d) ls); [exact Hall| |apply under_low; exact Hr|exact Hrw]. now rewrite Hlen, Hll.
    + intros _. now apply (po_table _ fields).
  - exfalso. rewrite Hg in Hfs'. destruct Hfs' as [E|E]; [discriminate|]. injection E as ->. destruct T as [T _].
    destruct fields; [congruence|discriminate].
Qed.

Lemma list_exact t key d l h ls : (forall ps, l <> map JPrim ps) -> (t = true -> forall fields rows, ~ SpecText.table l fields rows) ->
  SpecText.header dl key (length l) None h -> X_items (S d) l ls -> X_array t key d l ((d, h) :: ls).
Proof.
  intros _ Hnt Hh IH Hf Hd. apply header_spec in Hh. subst h.
  inversion Hf as [|? Hn Hf'|]; inversion Hd as [|? Hd'|]; subst. destruct (IH Hf' Hd') as (_ & _ & IH').
  eexists _, _. split; [reflexivity|]. split.
  { exists (length l), None, []. rewrite app_nil_r. auto. }
  intros ts rest h tail v rest' Hl Hr Hh H. rewrite <- (app_nil_r (format_header _ _ _ _)) in Hh.
  apply written_header in Hh as (Hcap & _ & _ & Hlen & Hfs & _ & Ht); [|exact Hn]. specialize (Hfs eq_refl).
  assert (Hb : blank tail) by (apply (blank_of_trim _ _ Ht); constructor).
  inversion H as [? ? ? ? t0 ps Htr Hne|? ? ? ? fs vs used rest0 _ Hfs' Hne Hrw|? ? ? ? vs used rest0 _ Hfs' Hi]; subst.
  - exfalso. apply Hne. apply trims_spec in Htr. apply blank_trim in Hb. congruence.
  - congruence.
  - rewrite Hlen in Hi. destruct (IH' ts rest vs rest' eq_refl (proj2 (under_low _ _) Hr) Hi) as (-> & A1 & A2).
    cbn [arrays tarrays]. split; auto. split; [lia|]. intros E. apply po_list; auto.
    intros -> fields T. apply tabular_rows in T; auto. apply table_spec in T as (rows0 & T). now apply (Hnt eq_refl fields rows0).
Qed.

Lemma items_exact d v l a b : X_item d v a -> X_items d l b -> X_items d (v :: l) (a ++ b).
Proof.
  intros IH1 IH2 Hf Hd. inversion Hf as [|? ? Hf1 Hf2]; inversion Hd as [|? ? Hd1 Hd2]; subst.
  destruct (IH1 Hf1 Hd1) as (t & a' & -> & Hit & IH1'). destruct (IH2 Hf2 Hd2) as (IHn & IHc & IH2'). clear IH1 IH2.
  split; [discriminate|]. split; [intros _; cbn [app]; eauto|].
  intros ls rest vs rest' Hl Hu H. apply map_al_app in Hl as (la & lb & -> & Ha & Hb).
  apply map_al_cons in Ha as (l1 & la' & -> & E & Ha). injection E as E1 E2. rewrite <- app_assoc in H. cbn [app] in H.
  remember (N.of_nat (length (v :: l))) as n eqn:En. cbn [length] in En.
  inversion H as [? ? |? ? ? He|? n' ? ? w ls1 ws rest0 Hdp Hi His]; subst; try lia.
  { exfalso. now apply (He l1 (la' ++ lb ++ rest)). }
  assert (Hlow : low (tl_depth l1) (lb ++ rest)).
  { intros x r E. destruct l as [|u l].
    - destruct lb; [|specialize (IHn eq_refl); discriminate]. cbn [app] in E. specialize (Hu x r E). lia.
    - destruct IHc as (t' & a & Eb); [discriminate|]. apply map_al_cons in Eb as (l2 & lb' & -> & E' & _).
      cbn [app] in E. injection E as <- _. injection E' as E' _. lia. }
  destruct (IH1' la' (lb ++ rest) w ls1 eq_refl Hlow Hi) as (-> & A1 & A2).
  replace n' with (N.of_nat (length l)) in His by lia.
  destruct (IH2' lb rest ws rest' eq_refl Hu His) as (-> & B1 & B2).
  cbn [map total]. split; auto. split; [lia|]. intros E. constructor; [apply A2|apply B2]; lia.
Qed.

Lemma prim_item d p t : SpecText.token f64_to_string dl p t -> X_item d (JPrim p) [(d, cMINUS :: cSPACE :: t)].
Proof.
  intros Ht _ _. apply token_spec in Ht. subst t. eexists _, []. split; [reflexivity|]. split; [right; eexists; reflexivity|].
  intros ls rest w rest' Hl _ H. destruct ls; [|discriminate]. cbn [app arrays] in *.
  pose proof (encode_primitive_tok p dl Hdl) as Htok.
  assert (NU : ~ unquoted cCOLON (encode_primitive p dl)).
  { intros U. apply key_value_spec in U. rewrite (tok_not_key_value _ _ Htok) in U. discriminate. }
  assert (NH : forall h tl, ~ is_header (encode_primitive p dl) h tl).
  { intros h tl Hh. apply header_some in Hh. discriminate (eq_trans (eq_sym Hh) (no_header_tok _ _ DEFAULT_DELIMITER Htok)). }
  inversion H; subst.
  - split; auto. split; [cbn; lia|]. constructor.
  - contradiction.
  - exfalso. match goal with X : _ \/ _ |- _ => destruct X as [X|(h & tl & X & _)]; [auto|eapply NH; eauto] end.
  - split; auto. split; [cbn; lia|]. constructor.
Qed.

Lemma arr_item d l t ls : X_array false None d l ((d, t) :: ls) -> X_item d (JArr l) ((d, cMINUS :: cSPACE :: t) :: ls).
Proof.
  intros IH Hf Hd. destruct (IH Hf Hd) as (tx & a & E & (n & fields & tl & Et & Hn) & IH'). injection E as <- <-.
  eexists _, ls. split; [reflexivity|]. split; [right; eexists; reflexivity|].
  intros ts rest w rest' Hl Hr H.
  assert (HC : begins cLBRACK t /\ unquoted cCOLON t).
  { apply array_content_spec. rewrite Et. now apply header_is_header_content. }
  destruct (written_header n None fields tl Hn) as [Hno Hh]. rewrite <- Et in Hno, Hh.
  inversion H as [| |? ? ? h tail v rest0 _ _ Hh' Ha|? ? ? m ls1 ms rest0 _ _ Hk Hm _|]; subst d.
  - exfalso. destruct HC as [(ws & r & E & _) _]. match goal with X : blank _ |- _ => rename X into Hb; rewrite E in Hb end.
    apply Forall_app in Hb as [_ Hb]. apply Forall_inv in Hb. discriminate Hb.
  - subst. now apply (IH' ts rest h tail w rest').
  - exfalso. inversion Hm as [? ? ? h tail k' q v rest1 Hh' Hkk _|? ? ? k' q r l0 ls' ms' rest1 Hp|? ? ? k' q r Hp|? ? ? k' q r p' Hp]; subst;
      try (destruct Hp as [Hp|(h & tail & Hp & E)]; [now apply Hno|now apply (Hk h tail)]).
    apply Hh in Hh' as (_ & _ & E & _). rewrite Hkk in E. discriminate.
  - tauto.
Qed.

Lemma none_item d : X_item d (JObj []) [(d, [cMINUS])].
Proof.
  intros _ _. eexists _, []. split; [reflexivity|]. split; [now left|].
  intros ls rest w rest' Hl _ H. destruct ls; [|discriminate]. cbn [app] in H. inversion H; subst.
  split; auto. split; [cbn; lia|]. intros _. repeat constructor.
Qed.

Lemma obj_item d k v l t a b : X_value (S d) k v ((S d, t) :: a) -> X_members (S d) l b ->
  X_item d (JObj ((k, v) :: l)) ((d, cMINUS :: cSPACE :: t) :: a ++ b).
Proof.
  intros IH1 IH2 Hf Hd. inversion Hf as [| |? Hf']; inversion Hd as [| |? _ Hd']; subst.
  inversion Hf' as [|? ? Hf1 Hf2]; inversion Hd' as [|? ? Hd1 Hd2]; subst. cbn [snd] in *.
  destruct (IH1 Hf1 Hd1) as (t' & a' & E & Hkc & _ & IH1'). injection E as <- <-.
  destruct (IH2 Hf2 Hd2) as (IHn & IHc & IH2'). clear IH1 IH2.
  eexists _, _. split; [reflexivity|]. split; [right; eexists; reflexivity|].
  destruct (key_content_facts t Hkc) as (HU & HB & HN & _).
  intros ls rest w rest' Hl Hr H. apply map_al_app in Hl as (la & lb & -> & Ha & Hb). rewrite <- app_assoc in H.
  inversion H as [|? ? ? Hb'|? ? ? h tail v0 rest0 Hbr _ Hh' _|? ? ? m ls1 ms rest0 _ _ _ Hm Hms|? ? ? p0 _ Hu]; subst; try contradiction.
  assert (Hlow : low (S d) (lb ++ rest)).
  { intros x r E. destruct l as [|u l].
    - destruct lb; [|specialize (IHn eq_refl); discriminate]. cbn [app] in E. specialize (Hr x r E). lia.
    - destruct IHc as (t' & a & Eb & _); [discriminate|]. apply map_al_cons in Eb as (l2 & lb' & -> & E' & _).
      cbn [app] in E. injection E as <- _. injection E' as E' _. lia. }
  destruct (IH1' la (lb ++ rest) m ls1 eq_refl Hlow Hm) as (-> & A1 & A2).
  destruct (IH2' lb rest true ms rest' eq_refl (proj2 (under_low _ _) Hr) Hms) as (-> & B1 & B2).
  cbn [arrays tarrays map total snd]. split; auto. split; [lia|]. intros E.
  destruct A2 as [A2 A3]; [lia|]. destruct B2 as [B2 B3]; [lia|]. constructor; constructor; auto.
Qed.

Notation wmember := (SpecText.member f64_to_string dl false fdepth).
Notation wvalue := (SpecText.value_of f64_to_string dl false fdepth).
Notation wmembers := (SpecText.members f64_to_string dl false fdepth).
Notation warray := (SpecText.array f64_to_string dl false fdepth).
Notation witems := (SpecText.items f64_to_string dl false fdepth).
Notation witem := (SpecText.item f64_to_string dl false fdepth).

Lemma written_exact :
  (forall c sibs d kv ls, wmember c sibs d kv ls -> X_value d (fst kv) (snd kv) ls) /\
  (forall c d k v ls, wvalue c d k v ls -> X_value d k v ls) /\
  (forall c sibs d l ls, wmembers c sibs d l ls -> X_members d l ls) /\
  (forall t key d l ls, warray t key d l ls -> X_array t key d l ls) /\
  (forall d l ls, witems d l ls -> X_items d l ls) /\
  (forall d v ls, witem d v ls -> X_item d v ls).
Proof.
  apply (SpecText.text_mutind f64_to_string dl false fdepth
    (fun _ _ d kv ls => X_value d (fst kv) (snd kv) ls) (fun _ d k v ls => X_value d k v ls)
    (fun _ _ d l ls => X_members d l ls) X_array X_items X_item).
  - intros c sibs d k v ks z ls [E _]. discriminate.
  - auto.
  - intros c d k p kt t Hk Ht. now apply prim_exact.
  - intros c d k l kt ls Hk _ IH. now apply obj_exact.
  - intros c d k l ls _ IH. now apply arr_exact.
  - intros c sibs d _ _. split; auto. split; [congruence|]. intros ls rest stop ms rest' Hl Hu H.
    destruct ls; [|discriminate]. cbn [app] in H. inversion H; subst.
    + split; [reflexivity|]. split; [cbn; lia|]. intros _. split; constructor.
    + exfalso. eapply Nat.lt_irrefl, Hu. reflexivity.
  - intros c sibs d [k v] l a b _ IH1 _ IH2. now apply members_exact.
  - intros t key d h. apply empty_exact.
  - intros t key d p ps h r. apply inline_exact.
  - intros key d l fields rows h ts. apply table_exact.
  - intros t key d l h ls H1 H2 H3 _ IH. now apply list_exact.
  - intros d _ _. split; auto. split; [congruence|]. intros ls rest vs rest' Hl Hu H.
    destruct ls; [|discriminate]. cbn [app length] in H. apply items_zero in H. split; auto. split; [cbn; lia|constructor].
  - intros d v l a b _ IH1 _ IH2. now apply items_exact.
  - intros d p t. apply prim_item.
  - intros d l t ls _. apply arr_item.
  - apply none_item.
  - intros d k v l t a b _ IH1 _ IH2. now apply obj_item.
Qed.

(** * Whole documents *)
Lemma document_exact v abs ls w : SpecText.document f64_to_string dl false fdepth v abs -> fits v -> distinct_keys v ->
  map al ls = abs -> root parse_f64 strict blanks ls w -> arrays v <= tarrays w /\ (arrays v = tarrays w -> portable v).
Proof.
  intros H Hf Hd Hl Hw. inversion H as [p t Ht|l ls' Ha|l dk ls' Hdk Hm]; subst.
  - split; [cbn; lia|constructor].
  - apply written_exact in Ha as (tx & a & E & (n & fields & tl & Et & Hn) & IH); auto.
    apply map_al_cons in E as (l1 & lb & -> & E & <-). injection E as E1 E2.
    assert (HC : begins cLBRACK tx /\ unquoted cCOLON tx).
    { apply array_content_spec. rewrite Et. now apply header_is_header_content. }
    destruct (written_header n None fields tl Hn) as [Hno Hh]. rewrite <- Et in Hno, Hh. rewrite <- E2 in *.
    inversion Hw as [|? ? h tail v0 rest _ _ Hh' Hr|? p Hc|? ? m ls1 ms rest Hc]; subst; try tauto.
    rewrite <- (app_nil_r lb) in Hr. destruct (IH lb [] h tail w rest) as (_ & H1 & H2); auto. intros ? ? X. discriminate X.
  - apply written_exact in Hm. inversion Hf as [| |? Hf']; inversion Hd as [| |? _ Hd']; subst.
    destruct (Hm Hf' Hd') as (Hn & Hc & IH). destruct l as [|[k v] l].
    + split; [cbn; lia|]. intros _. repeat constructor.
    + destruct Hc as (t & a & E & Hkc & Hkl); [discriminate|].
      apply map_al_cons in E as (l1 & lb & -> & E & E'). injection E as E1 E2.
      destruct (key_content_facts t Hkc) as (HU & HB & HN & HH). rewrite <- E2 in *.
      inversion Hw as [|? ? h tail v0 rest Hb|? p Hb Hcl Hp|? ? m ls1 ms rest Hb Hcl Hmm Hms]; subst; try tauto.
      * apply colon_line_spec in Hkl. contradiction.
      * assert (X : rmembers false 0 ((l1 :: lb) ++ []) (m :: ms) rest).
        { rewrite app_nil_r. eapply ms_more; eauto. intros [X _]. discriminate. }
        destruct (IH (l1 :: lb) [] false (m :: ms) rest) as (_ & H1 & H2); auto; [intros ? ? Y; discriminate Y|].
        cbn [arrays tarrays]. split; auto. intros E. destruct (H2 E). now constructor.
Qed.
End Exact.

(** * The lines of a document *)

Section Clean.
Variable dl : char.
Hypothesis Hdl : std_delim dl.
Variables (fold : bool) (fdepth : N).

Lemma table_cells l fields rows r : SpecText.table l fields rows -> In r rows -> r <> [].
Proof.
  intros (Hn & _ & H) Hi. destruct fields as [|f fs]; [congruence|]. clear Hn.
  induction H as [|v c l rows (es & _ & _ & Hc) _ IH]; [destruct Hi|]. destruct Hi as [->|Hi]; [|auto].
  intros ->. inversion Hc.
Qed.

Lemma text_clean :
  (forall c sibs d kv ls, SpecText.member f64_to_string dl fold fdepth c sibs d kv ls -> clean_lines ls) /\
  (forall c d k v ls, SpecText.value_of f64_to_string dl fold fdepth c d k v ls -> clean_lines ls) /\
  (forall c sibs d l ls, SpecText.members f64_to_string dl fold fdepth c sibs d l ls -> clean_lines ls) /\
  (forall t key d l ls, SpecText.array f64_to_string dl fold fdepth t key d l ls -> clean_lines ls) /\
  (forall d l ls, SpecText.items f64_to_string dl fold fdepth d l ls -> clean_lines ls) /\
  (forall d v ls, SpecText.item f64_to_string dl fold fdepth d v ls -> clean_lines ls).
Proof.
  unfold clean_lines. apply (SpecText.text_mutind f64_to_string dl fold fdepth
    (fun _ _ _ _ ls => clean_lines ls) (fun _ _ _ _ ls => clean_lines ls)
    (fun _ _ _ _ ls => clean_lines ls) (fun _ _ _ _ ls => clean_lines ls)
    (fun _ _ ls => clean_lines ls) (fun _ _ ls => clean_lines ls)); unfold clean_lines; auto.
  - intros c d k p kt t Hk Ht. apply key_text_spec in Hk. apply token_spec in Ht. subst.
    constructor; [|constructor]. cbn [snd].
    change (?a ++ cCOLON :: cSPACE :: ?b) with (a ++ [cCOLON; cSPACE] ++ b).
    apply clean_sep; [apply (clean_key dl Hdl)|now apply clean_prim| |]; intros [E|[E|[]]]; discriminate.
  - intros c d k l kt ls Hk _ IH. apply key_text_spec in Hk. subst. constructor; auto. cbn.
    apply clean_app; [apply (clean_key dl Hdl)|now apply clean_char].
  - intros. apply Forall_app. auto.
  - intros t key d h Hh. apply header_spec in Hh. subst. constructor; auto. apply clean_header; [auto|discriminate].
  - intros t key d p ps h r Hh Hr. apply header_spec in Hh. apply row_spec in Hr. subst. constructor; auto. cbn [snd].
    change (?a ++ cSPACE :: ?b) with (a ++ [cSPACE] ++ b).
    apply clean_sep; [apply clean_header; [auto|discriminate]|apply clean_row; [auto|discriminate]| |]; intros [E|[]]; discriminate.
  - intros key d l fields rows h ts Ht Hh Hr. apply header_spec in Hh. subst. constructor.
    + cbn. apply clean_header; auto. intros fs E. injection E as <-. apply Ht.
    + assert (Hc : forall r, In r rows -> r <> []) by (intros r; now apply (table_cells l fields)). clear Ht. apply Forall_map.
      induction Hr as [|r t rows ts Hr _ IH]; constructor.
      * cbn. apply row_spec in Hr. subst. apply clean_row; auto. apply Hc. now left.
      * apply IH. intros q Hq. apply Hc. now right.
  - intros t key d l h ls _ _ Hh _ IH. apply header_spec in Hh. subst. constructor; auto. apply clean_header; [auto|discriminate].
  - intros. apply Forall_app. auto.
  - intros d p t Ht. apply token_spec in Ht. subst. constructor; auto. cbn. now apply clean_hyphen, clean_prim.
  - intros d l t ls _ IH. inversion IH; subst. constructor; auto. now apply clean_hyphen.
  - intros d. constructor; auto. now apply clean_char.
  - intros d k v l t a b _ IH1 _ IH2. inversion IH1; subst. constructor; [now apply clean_hyphen|]. apply Forall_app. auto.
Qed.

Lemma document_clean v ls : SpecText.document f64_to_string dl fold fdepth v ls -> clean_lines ls.
Proof.
  intros [p t Ht|l ls' H|l dk ls' _ H].
  - apply token_spec in Ht. subst. constructor; [now apply clean_prim|constructor].
  - now apply text_clean in H.
  - now apply text_clean in H.
Qed.
End Clean.

Lemma spaces_split k t k' t' : (forall r, t <> cSPACE :: r) -> (forall r, t' <> cSPACE :: r) ->
  repeat cSPACE k ++ t = repeat cSPACE k' ++ t' -> k = k' /\ t = t'.
Proof.
  intros H H'. revert k'. induction k as [|k IH]; intros [|k']; cbn [repeat app]; intros E; auto.
  - now apply H in E.
  - symmetry in E. now apply H' in E.
  - injection E as E. apply IH in E as [-> ->]. auto.
Qed.

Lemma scans_shown strict size doc : clean_lines doc -> size <> 0 -> forall n ls bs,
  scans strict size n (map (SpecText.shown size) doc) ls bs -> map al ls = doc.
Proof.
  intros Hc Hs. induction Hc as [|[d c] doc Hc _ IH]; intros n ls bs H; cbn [map] in H.
  - inversion H; subst. reflexivity.
  - destruct (clean_ends c Hc) as [(x & r & E & Hx) _].
    assert (Hsp : forall r, c <> cSPACE :: r).
    { intros r' E'. rewrite E in E'. injection E' as -> _. discriminate. }
    inversion H as [|? ? ? ls' bs' Hb Hr|? k t d' ? ls' bs' Ht Hsp' Hd Htab Hr]; subst.
    + exfalso. unfold SpecText.shown in Hb. cbn [fst snd] in Hb. apply Forall_app in Hb as [_ Hb].
      apply Forall_inv in Hb. congruence.
    + match goal with X : _ ++ _ = SpecText.shown _ _ |- _ => unfold SpecText.shown in X; cbn [fst snd] in X;
        apply spaces_split in X as [-> ->]; auto end.
      cbn [map]. f_equal; [|eapply IH; eauto]. unfold al. cbn. f_equal.
      destruct Hd as (_ & Hd & _). destruct (Hd Hs) as [H1 H2]. nia.
Qed.

(** * Back to the value that was given *)

Lemma norm_portable_inv v : forall t w, norm_json v w -> portable_at t w -> portable_at t v.
Proof.
  induction v using json_ind'; intros t w Hn Hp; inversion Hn as [|? ? F|? ? F]; subst; [constructor| |].
  - inversion Hp as [|? ? Hl Hf Hi|? fields Hl Ht Hf|]; subst.
    + apply po_list.
      * now rewrite <- (Forall2_length' _ _ _ F).
      * intros E fields T. apply (Hf E fields). eapply norm_tabular_iff; eauto.
      * clear Hn Hp Hl Hf. induction F; constructor; inversion H; inversion Hi; subst; eauto.
    + apply (po_table _ fields); auto.
      * now rewrite <- (Forall2_length' _ _ _ F).
      * eapply norm_tabular; eauto.
  - inversion Hp as [| | |? ? Hs Hi]; subst. constructor.
    + clear - F Hs. induction F as [|a b l m [E R] F IH]; constructor; inversion Hs; subst; auto.
      intros s Es. rewrite Es in R. inversion R as [? ? P| |]; subst. inversion P; subst. rewrite E. auto.
    + clear Hn Hp Hs. induction F as [|a b l m [E R] F IH]; constructor; inversion H; inversion Hi; subst; eauto.
Qed.
Lemma norm_fits v : forall w, norm_json v w -> fits v -> fits w.
Proof.
  induction v using json_ind'; intros w Hn Hp; inversion Hn as [|? ? F|? ? F]; inversion Hp as [|? Hl Hi|? Hi]; subst; constructor.
  - now rewrite (Forall2_length' _ _ _ F).
  - clear Hn Hp Hl. induction F; constructor; inversion H; inversion Hi; subst; auto.
  - clear Hn Hp. induction F as [|a b l m [E R] F IH]; constructor; inversion H; inversion Hi; subst; auto.
Qed.

Lemma exact_converse fuel v eo d text n w : plain_options eo -> matching_options eo d -> distinct_keys v -> fits v ->
  encode fuel v eo = Ok text -> norm_json v n -> try_decode text d = Ok w -> jequiv n w -> portable v.
Proof.
  intros (Hfo & Hr & Hdl & Hi) [Hmi He] Hd Hf E Hn Hw Hj. eapply norm_portable_inv; [exact Hn|].
  pose proof (norm_distinct _ _ Hn Hd) as Hd'. pose proof (norm_fits _ _ Hn Hf) as Hf'.
  unfold encode, encode_lines, prepare in E. cbv zeta in E. rewrite Hr in E. cbn [bind] in E.
  apply norm_is in Hn. subst n. set (o := resolve_encode_options eo) in *.
  destruct (encode_json_value (normalize_json_value v) o) as [ls|] eqn:El; [|discriminate]. cbn [bind] in E. injection E as <-.
  destruct (value_text o _ _ El) as (doc & Hdoc & ->).
  replace (folding o) with false in Hdoc by (unfold folding; now rewrite Hfo).
  pose proof (document_clean _ Hdl _ _ _ _ Hdoc) as Hc.
  unfold try_decode, try_decode_from_lines in Hw. cbv zeta in Hw. rewrite Hmi, He in Hw.
  assert (Hlf : Forall (fun s => ~ In cLF s) (map (SpecText.shown (ro_indent o)) doc)).
  { exact (render_no_lf (ro_indent o) doc Hc). }
  rewrite stream_text in Hw by exact Hlf.
  destruct (decode_stream_sync _ _) as [evs|] eqn:Es; [|discriminate]. cbn [bind] in Hw.
  apply stream_spec in Es as (ls & bs & tr & Hs & Hroot & ->).
  destruct (describes_build _ _ _ (tree_describes tr)) as (nd & En & Ev). rewrite En in Hw. cbn [bind] in Hw.
  injection Hw as <-. rewrite Ev in Hj.
  pose proof (scans_shown _ _ _ Hc Hi _ _ _ Hs) as Hal.
  destruct (document_exact _ Hdl _ _ _ _ _ _ _ Hdoc Hf' Hd' Hal Hroot) as [_ H]. apply H.
  rewrite <- tree_arrays. now apply jequiv_arrays.
Qed.
