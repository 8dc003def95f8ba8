(** Array headers and keys: the functions of src/decode/parser.rs compute what SpecRead.v
    describes. *)
From Verif Require Import Chars Floats Json Shared Scanner Parser Lex NumProof PrimProof Spec DecNums ParseProof
  SpecText TextProof SpecRead ReadLex.

Local Open Scope nat_scope.

(** * Uniqueness of the parts *)

Lemma cut2 c d s a b a' b' : cut c s a b -> cut d s a' b' -> c <> d -> In c a' \/ In d a.
Proof.
  intros [E H] [E' H'] Hcd. subst s. destruct (Nat.lt_trichotomy (length a) (length a')) as [L|[L|L]].
  - left. clear - E' L. revert a' E' L. induction a as [|x a IH]; intros [|y a'] E L; cbn in L; try lia.
    + injection E as <- _. now left.
    + injection E as <- E. right. apply (IH a'); auto. lia.
  - apply app_inv_length in E' as [_ E']; auto. injection E' as E' _. congruence.
  - right. clear - E' L. revert a E' L. induction a' as [|x a' IH]; intros [|y a] E L; cbn in L; try lia.
    + injection E as E _. now left.
    + injection E as <- E. right. apply (IH a); auto. lia.
Qed.

Lemma tail_parts_fun s f t f' t' : tail_parts s f t -> tail_parts s f' t' -> f = f' /\ t = t'.
Proof.
  assert (X : forall m r1 g r2 x u m' u', cut cLBRACE s m r1 -> ~ In cCOLON m -> cut cRBRACE r1 g r2 -> cut cCOLON r2 x u ->
    cut cCOLON s m' u' -> (~ In cLBRACE m' \/ exists m1 r1, cut cLBRACE s m1 r1 /\ ~ In cRBRACE r1) -> False).
  { intros m r1 g r2 x u m' u' H1 H2 H3 H4 H5 [H6|(m1 & r1' & H6 & H7)].
    - destruct (cut2 _ _ _ _ _ _ _ H1 H5) as [H|H]; [discriminate|auto|auto].
    - destruct (cut_fun _ _ _ _ _ _ H1 H6) as [_ <-]. destruct H3 as [-> _]. apply H7. rewrite in_app_iff. right. now left. }
  intros [m r1 g r2 x u H1 H2 H3 H4|m u H1 H2] [m' r1' g' r2' x' u' H1' H2' H3' H4'|m' u' H1' H2'].
  - destruct (cut_fun _ _ _ _ _ _ H1 H1') as [<- <-]. destruct (cut_fun _ _ _ _ _ _ H3 H3') as [<- <-].
    destruct (cut_fun _ _ _ _ _ _ H4 H4') as [<- <-]. auto.
  - destruct (X m r1 g r2 x u m' u'); auto.
  - destruct (X m' r1' g' r2' x' u' m u); auto.
  - destruct (cut_fun _ _ _ _ _ _ H1 H1') as [<- <-]. auto.
Qed.

Lemma blank_quote w r w' r' : blank w -> blank w' -> w ++ cDQ :: r = w' ++ cDQ :: r' -> w = w' /\ r = r'.
Proof.
  intros Hw Hw' E. assert (N : forall v, blank v -> ~ In cDQ v).
  { intros v Hv Hi. unfold blank in Hv. rewrite Forall_forall in Hv. apply Hv in Hi. discriminate. }
  apply (cut_fun cDQ (w ++ cDQ :: r)); split; auto.
Qed.
Lemma head_fun s k r k' r' : head s k r -> head s k' r' -> k = k' /\ r = r'.
Proof.
  intros [k0 r0 H1 H2|w b r0 -> Hw Hq] [k0' r0' H1' H2'|w' b' r0' E Hw' Hq'].
  - exact (cut_fun _ _ _ _ _ _ H2 H2').
  - destruct H1. subst s. exists w', (b' ++ cDQ :: cLBRACK :: r0'). auto.
  - destruct H1'. exists w, (b ++ cDQ :: cLBRACK :: r0). auto.
  - apply blank_quote in E as [<- E]; auto. destruct (quote_body_fun b Hq b' _ _ Hq' E) as [<- E']. injection E' as <-. auto.
Qed.
Lemma frame_fun s k l f t k' l' f' t' : frame s k l f t -> frame s k' l' f' t' -> k = k' /\ l = l' /\ f = f' /\ t = t'.
Proof.
  intros (r & a & H1 & H2 & H3) (r' & a' & H1' & H2' & H3'). destruct (head_fun _ _ _ _ _ H1 H1') as [<- <-].
  destruct (cut_fun _ _ _ _ _ _ H2 H2') as [<- <-]. destruct (tail_parts_fun _ _ _ _ _ H3 H3') as [<- <-]. auto.
Qed.

(** * The bracket *)

Definition closed (s : str) : Prop :=
  forall w r, s = w ++ cDQ :: r -> blank w -> exists b r', r = b ++ cDQ :: r' /\ quote_body b.

Lemma ws_dq : is_ws cDQ = false. Proof. reflexivity. Qed.
Lemma head_length s k r : head s k r -> s = k ++ cLBRACK :: r.
Proof. intros [k0 r0 _ [-> _]|w b r0 -> _ _]; auto. rewrite <- app_assoc. cbn [app]. rewrite <- app_assoc. reflexivity. Qed.

Lemma skip_quoted b r : skipn (S (S (length b))) (cDQ :: b ++ cDQ :: r) = r.
Proof.
  replace (cDQ :: b ++ cDQ :: r) with ((cDQ :: b ++ [cDQ]) ++ r) by (cbn [app]; now rewrite <- app_assoc).
  apply skipn_app_exact. cbn [length]. rewrite app_length. cbn. lia.
Qed.

Lemma bracket_spec s :
  match bracket_start_of s with
  | Err _ => ~ closed s
  | Ok None => closed s /\ forall k r, ~ head s k r
  | Ok (Some i) => closed s /\ exists k r, head s k r /\ i = length k
  end.
Proof.
  unfold bracket_start_of. destruct (starts_with cDQ (trim_start s)) eqn:Es.
  - destruct (trim_start_spec s) as (w & E & Hw & _). apply starts_with_true in Es as (r & Er). rewrite Er in *.
    assert (Hb : begins cDQ s) by (exists w, r; auto).
    destruct (find_closing_quote (cDQ :: r) 0) as [c|] eqn:Ec.
    + apply closing_spec in Ec as (b & r' & -> & Hq & ->).
      assert (Hcl : closed s).
      { intros w' r'' E' Hw'. rewrite E in E'. apply blank_quote in E' as [<- <-]; auto. exists b, r'. auto. }
      rewrite skip_quoted. destruct (starts_with cLBRACK r') eqn:Eb; cbn [negb].
      * apply starts_with_true in Eb as (r & ->). assert (Hh : head s (w ++ cDQ :: b ++ [cDQ]) r) by now apply he_quoted.
        pose proof (head_length _ _ _ Hh) as Hl.
        replace (length s - length (cDQ :: b ++ cDQ :: cLBRACK :: r) + S (length b) + 1) with (length (w ++ cDQ :: b ++ [cDQ])).
        2: { rewrite E, !app_length. cbn. rewrite !app_length. cbn. lia. }
        assert (Ef : find_from cLBRACK (length (w ++ cDQ :: b ++ [cDQ])) s = Some (length (w ++ cDQ :: b ++ [cDQ]))).
        { rewrite Hl. rewrite find_from_app by reflexivity. cbn [find_char]. rewrite N.eqb_refl. cbn [option_map]. f_equal. lia. }
        rewrite Ef. split; auto. do 2 eexists. split; [exact Hh|reflexivity].
      * split; auto. intros k r [k0 r0 H1 _|w' b' r0 E' Hw' Hq']; [contradiction|].
        rewrite E in E'. apply blank_quote in E' as [<- E']; auto. destruct (quote_body_fun b Hq b' _ _ Hq' E') as [_ ->]. discriminate.
    + intros Hcl. destruct (Hcl w r E Hw) as (b & r' & -> & Hq).
      assert (X : find_closing_quote (cDQ :: b ++ cDQ :: r') 0 = Some (S (length b))) by (apply closing_spec; eauto). congruence.
  - assert (Hb : ~ begins cDQ s) by (rewrite begins_spec by reflexivity; congruence).
    assert (Hcl : closed s). { intros w r E Hw. destruct Hb. exists w, r. auto. }
    destruct (find_char cLBRACK s) as [i|] eqn:Ef.
    + apply find_cut in Ef as (a & b & Hc & <-). split; auto. exists a, b. split; auto. now apply he_bare.
    + split; auto. intros k r [k0 r0 _ [-> _]|w b r0 E Hw Hq].
      * apply find_char_None in Ef. apply Ef. rewrite in_app_iff. right. now left.
      * apply Hb. exists w, (b ++ cDQ :: cLBRACK :: r0). auto.
Qed.

(** * The colon and the fields *)

Lemma find_from_at c pre s : find_from c (length pre) (pre ++ s) = option_map (fun i => length pre + i) (find_char c s).
Proof. now apply find_from_app. Qed.
Lemma slice_at pre a b : slice (length pre) (length pre + length a) (pre ++ a ++ b) = a.
Proof. unfold slice. rewrite skipn_app_exact by reflexivity. apply firstn_app_exact. lia. Qed.

Lemma colon_spec pre s be dl : S be = length pre ->
  match header_colon (pre ++ s) be with
  | None => forall f t, ~ tail_parts s f t
  | Some ci => exists f t, tail_parts s f t /\ skipn (S ci) (pre ++ s) = t /\
      header_fields (pre ++ s) be ci dl =
      match f with Some f => let? fs := parse_fields f dl in Ok (Some fs) | None => Ok None end
  end.
Proof.
  intros L. unfold header_colon, header_fields. rewrite L, !find_from_at.
  assert (Hskip : forall x c t, s = x ++ c :: t -> skipn (S (length pre + length x)) (pre ++ s) = t).
  { intros x c t ->. replace (pre ++ x ++ c :: t) with ((pre ++ x ++ [c]) ++ t) by now rewrite <- !app_assoc.
    apply skipn_app_exact. rewrite !app_length. cbn. lia. }
  destruct (cut_cases cCOLON s) as [Nc|(m & t & Hc)].
  { (* no colon at all *)
    apply find_char_None in Nc as Fc. rewrite Fc. cbn [option_map].
    assert (X : forall f t, ~ tail_parts s f t).
    { intros f t [m r1 g r2 x u [-> _] _ [-> _] [-> _]|m u [-> _] _]; apply Nc; rewrite !in_app_iff; cbn; rewrite ?in_app_iff; cbn; rewrite ?in_app_iff; cbn; tauto. }
    destruct (find_char cLBRACE s) as [i|]; cbn [option_map]; rewrite find_from_at, Fc; exact X. }
  rewrite (cut_find _ _ _ _ Hc). cbn [option_map].
  destruct (cut_cases cLBRACE s) as [Nb|(m1 & r1 & Hb)].
  { apply find_char_None in Nb as Fb. rewrite Fb. cbn [option_map].
    rewrite find_from_at, (cut_find _ _ _ _ Hc). cbn [option_map]. exists None, t. split.
    - apply (tp_plain _ m); auto. left. destruct Hc as [-> _]. rewrite in_app_iff in Nb. tauto.
    - split; auto. destruct Hc as [Ec _]. exact (Hskip _ _ _ Ec). }
  rewrite (cut_find _ _ _ _ Hb). cbn [option_map].
  destruct (Nat.ltb_spec (length pre + length m1) (length pre + length m)) as [Hlt|Hge].
  - (* the brace comes first *)
    assert (Hm1 : ~ In cCOLON m1).
    { intros Hi. apply in_split in Hi as (x & y & ->). destruct Hb as [Es _], Hc as [Es' Hn].
      rewrite Es in Es'. rewrite <- !app_assoc in Es'. cbn [app] in Es'.
      rewrite app_length in Hlt. cbn in Hlt. apply Hn. clear - Es' Hlt.
      assert (Lx : length x < length m) by lia. clear Hlt. revert m Es' Lx.
      induction x as [|z x IH]; intros [|z' m] E L; cbn in L; try lia.
      - injection E as <- _. now left.
      - injection E as <- E. right. apply (IH m); auto. lia. }
    assert (Es : pre ++ s = (pre ++ m1) ++ cLBRACE :: r1) by (destruct Hb as [-> _]; now rewrite <- app_assoc).
    assert (Hf : find_from cRBRACE (length pre + length m1) (pre ++ s) =
                 option_map (fun i => length pre + length m1 + S i) (find_char cRBRACE r1)).
    { rewrite Es. rewrite <- app_length, find_from_at. cbn [find_char]. change (cLBRACE =? cRBRACE)%N with false. cbv iota.
      destruct (find_char cRBRACE r1); reflexivity. }
    rewrite Hf. destruct (cut_cases cRBRACE r1) as [Nr|(g & r2 & Hr)].
    + apply find_char_None in Nr as Fr. rewrite Fr. cbn [option_map]. rewrite find_from_at, (cut_find _ _ _ _ Hc). cbn [option_map].
      exists None, t. split; [apply (tp_plain _ m); auto; right; exists m1, r1; auto|].
      split; [destruct Hc as [Ec _]; exact (Hskip _ _ _ Ec)|].
      destruct (Nat.ltb_spec (length pre + length m1) (length pre + length m)); [reflexivity|lia].
    + rewrite (cut_find _ _ _ _ Hr). cbn [option_map].
      assert (Es2 : pre ++ s = (pre ++ m1 ++ cLBRACE :: g ++ [cRBRACE]) ++ r2).
      { rewrite Es. destruct Hr as [-> _]. rewrite <- !app_assoc. cbn [app]. now rewrite <- app_assoc. }
      assert (L2 : S (length pre + length m1 + S (length g)) = length (pre ++ m1 ++ cLBRACE :: g ++ [cRBRACE])).
      { rewrite !app_length. cbn [length]. rewrite app_length. cbn. lia. }
      rewrite L2.
      assert (Ef : find_from cCOLON (length (pre ++ m1 ++ cLBRACE :: g ++ [cRBRACE])) (pre ++ s) =
        option_map (fun i => length (pre ++ m1 ++ cLBRACE :: g ++ [cRBRACE]) + i) (find_char cCOLON r2)) by (rewrite Es2; apply find_from_at).
      rewrite Ef.
      destruct (cut_cases cCOLON r2) as [N2|(x & t2 & H2)].
      * apply find_char_None in N2 as F2. rewrite F2. cbn [option_map].
        intros f u [m' r1' g' r2' x' u' H1' H2' H3' H4'|m' u' H1' H2'].
        -- destruct (cut_fun _ _ _ _ _ _ Hb H1') as [<- <-]. destruct (cut_fun _ _ _ _ _ _ Hr H3') as [<- <-].
           destruct H4' as [-> _]. apply N2. rewrite in_app_iff. right. now left.
        -- destruct H2' as [H2'|(m1' & r1' & H3' & H4')].
           ++ destruct (cut2 _ _ _ _ _ _ _ Hb H1') as [H|H]; [discriminate|auto|auto].
           ++ destruct (cut_fun _ _ _ _ _ _ Hb H3') as [_ <-]. destruct Hr as [-> _]. apply H4'. rewrite in_app_iff. right. now left.
      * rewrite (cut_find _ _ _ _ H2). cbn [option_map]. exists (Some g), t2.
        split; [now apply (tp_fields _ m1 r1 g r2 x)|]. split.
        { rewrite Es2. destruct H2 as [-> _]. replace ((pre ++ m1 ++ cLBRACE :: g ++ [cRBRACE]) ++ x ++ cCOLON :: t2)
            with (((pre ++ m1 ++ cLBRACE :: g ++ [cRBRACE]) ++ x ++ [cCOLON]) ++ t2) by (rewrite <- !app_assoc; reflexivity).
          apply skipn_app_exact. rewrite !app_length. cbn. lia. }
        rewrite <- L2. destruct (Nat.ltb_spec (length pre + length m1) (S (length pre + length m1 + S (length g)) + length x)); [|lia].
        destruct (Nat.ltb_spec (length pre + length m1 + S (length g)) (S (length pre + length m1 + S (length g)) + length x)); [|lia].
        replace (slice (S (length pre + length m1)) (length pre + length m1 + S (length g)) (pre ++ s)) with g; [reflexivity|].
        symmetry. rewrite Es2. replace ((pre ++ m1 ++ cLBRACE :: g ++ [cRBRACE]) ++ r2) with ((pre ++ m1 ++ [cLBRACE]) ++ g ++ cRBRACE :: r2).
        2: { rewrite <- !app_assoc. cbn [app]. now rewrite <- app_assoc. }
        replace (S (length pre + length m1)) with (length (pre ++ m1 ++ [cLBRACE])) by (rewrite !app_length; cbn; lia).
        replace (length pre + length m1 + S (length g)) with (length (pre ++ m1 ++ [cLBRACE]) + length g) by (rewrite !app_length; cbn; lia).
        apply slice_at.
  - (* the colon comes first *)
    rewrite find_from_at, (cut_find _ _ _ _ Hc). cbn [option_map]. exists None, t.
    split; [|split; [destruct Hc as [Ec _]; exact (Hskip _ _ _ Ec)|]].
    + apply (tp_plain _ m); auto. left. intros Hi.
      apply in_split in Hi as (x & y & ->). destruct Hb as [Es Hn], Hc as [Es' _].
      rewrite Es' in Es. rewrite <- !app_assoc in Es. cbn [app] in Es.
      rewrite app_length in Hge. cbn in Hge. apply Hn. clear - Es Hge.
      assert (Lx : length x < length m1) by lia. clear Hge. revert m1 Es Lx.
      induction x as [|z x IH]; intros [|z' m] E L; cbn in L; try lia.
      * injection E as <- _. now left.
      * injection E as <- E. right. apply (IH m); auto. lia.
    + destruct (Nat.ltb_spec (length pre + length m1) (length pre + length m)); [lia|reflexivity].
Qed.

(** * The key, the length and the names *)

Definition key_flag (key : option (str * bool)) : bool := match key with Some (_, q) => q | None => false end.

Lemma frame_key_spec k rest o q :
  header_key (k ++ rest) (length k) = Ok (o, q) <-> exists key, frame_key k key /\ o = option_map fst key /\ q = key_flag key.
Proof.
  assert (Hpos : forall A (x y : A), (k = [] -> x = y) -> (if Nat.ltb 0 (length k) then x else y) = x).
  { intros A x y H. destruct k; [cbn; symmetry; auto|reflexivity]. }
  unfold header_key. rewrite firstn_app_exact by reflexivity. rewrite Hpos; [|intros ->; reflexivity]. clear Hpos.
  pose proof (trims_trim k) as Hu. pose proof (trim_tight_out k) as Ht.
  assert (F : forall u, trims k u -> u = trim k) by (intros u H; now apply trims_spec).
  assert (Fb : blank k <-> trim k = []) by apply blank_trim.
  set (u := trim k) in *. clearbody u. destruct (starts_with cDQ u) eqn:Es.
  - apply starts_with_true in Es as (r & ->). split.
    + destruct (parse_string_literal (cDQ :: r)) as [s|] eqn:El; [|discriminate]. cbn [bind]. intros H. injection H as <- <-.
      apply literal_spec in El as (v & Hv & Hq). apply trims_spec in Hv. rewrite (trim_tight _ Ht) in Hv. subst v.
      destruct Hq as [[_ H]|Hq]; [now destruct (H r)|]. exists (Some (s, true)). split; [|auto]. now apply (fk_quoted _ (cDQ :: r)).
    + intros (key & [Hb|v Hv Hne Hd|v s Hv Hq] & -> & ->).
      * apply Fb in Hb. discriminate.
      * apply F in Hv as ->. now destruct (Hd r).
      * apply F in Hv as ->. assert (El : parse_string_literal (cDQ :: r) = Ok s).
        { apply literal_spec. exists (cDQ :: r). split; [apply trims_spec; symmetry; now apply trim_tight|auto]. }
        rewrite El. reflexivity.
  - pose proof (proj1 (starts_with_not _ _) Es) as Hn. destruct (is_empty u) eqn:Ee; cbn [negb].
    + apply is_empty_true in Ee. subst u. split.
      * intros H. injection H as <- <-. exists None. split; [constructor; now apply Fb|auto].
      * intros (key & [Hb|v Hv Hne Hd|v s Hv Hq] & -> & ->); auto.
        -- apply F in Hv as ->. congruence.
        -- apply F in Hv as ->. apply quotes_head in Hq as (r & Hq). discriminate.
    + apply is_empty_false in Ee. split.
      * intros H. injection H as <- <-. exists (Some (u, false)). split; [now constructor|auto].
      * intros (key & [Hb|v Hv Hne Hd|v s Hv Hq] & -> & ->).
        -- apply Fb in Hb. congruence.
        -- apply F in Hv as ->. reflexivity.
        -- apply F in Hv as ->. apply quotes_head in Hq as (r & ->). now destruct (Hn r).
Qed.

Lemma usize_spec s n : parse_usize s = Some n <->
  exists sg ds, s = sg ++ ds /\ (sg = [] \/ sg = [cPLUS]) /\ digits ds /\ n = digits_value ds /\ (n < 2 ^ 64)%N.
Proof.
  change (2 ^ 64)%N with (N.succ USIZE_MAX). unfold parse_usize. split.
  - set (ds := match s with [] => [] | c :: r => if (c =? cPLUS)%N then r else s end).
    assert (Hs : exists sg, s = sg ++ ds /\ (sg = [] \/ sg = [cPLUS])).
    { unfold ds. destruct s as [|c r]; [exists []; auto|]. destruct (N.eqb_spec c cPLUS) as [->|]; [exists [cPLUS]|exists []]; auto. }
    clearbody ds. destruct Hs as (sg & -> & Hsg).
    destruct (is_empty ds) eqn:E1; [discriminate|]. destruct (forallb is_digit ds) eqn:E2; [|discriminate].
    destruct (N.leb_spec (dec_val ds) USIZE_MAX) as [L|]; [|discriminate]. intros H. injection H as <-.
    exists sg, ds. split; auto. split; auto. split.
    + split; [now apply is_empty_false|]. rewrite forallb_forall in E2. apply Forall_forall. intros x Hx. apply digit_is. auto.
    + change (digits_value ds) with (dec_val ds). split; [reflexivity|lia].
  - intros (sg & ds & -> & Hsg & (Hne & Hd) & -> & L). change (digits_value ds) with (dec_val ds) in *.
    assert (E : match sg ++ ds with [] => [] | c :: r => if (c =? cPLUS)%N then r else sg ++ ds end = ds).
    { destruct Hsg as [->| ->]; [|reflexivity]. destruct ds as [|c r]; auto. cbn [app]. inversion Hd as [|? ? Hc _]; subst. unfold digit in Hc.
      destruct (N.eqb_spec c cPLUS); [lia|reflexivity]. }
    rewrite E. apply is_empty_false in Hne. rewrite Hne. replace (forallb is_digit ds) with true.
    2: { symmetry. apply forallb_forall. intros x Hx. apply digit_is. rewrite Forall_forall in Hd. auto. }
    destruct (N.leb_spec (dec_val ds) USIZE_MAX); [reflexivity|lia].
Qed.

Lemma frame_length_spec seg n dl : parse_bracket_segment seg DEFAULT_DELIMITER = Ok (n, dl) <-> frame_length seg n dl.
Proof.
  unfold parse_bracket_segment. split.
  - assert (X : exists content dt d, seg = content ++ dt /\ (dt = [] /\ d = cCOMMA \/ dt = [d] /\ (d = cTAB \/ d = cPIPE)) /\
      (if ends_with cTAB seg then (pop seg, cTAB) else if ends_with cPIPE seg then (pop seg, cPIPE) else (seg, DEFAULT_DELIMITER)) = (content, d)).
    { destruct (list_last_cases seg) as [->|(a & x & ->)]; [exists [], [], cCOMMA; cbn; auto|]. rewrite !ends_with_snoc. unfold pop. rewrite removelast_last.
      destruct (N.eqb_spec x cTAB) as [->|]; [exists a, [cTAB], cTAB; split; [reflexivity|split; [auto|reflexivity]]|].
      destruct (N.eqb_spec x cPIPE) as [->|]; [exists a, [cPIPE], cPIPE; split; [reflexivity|split; [auto|reflexivity]]|].
      exists (a ++ [x]), [], cCOMMA. rewrite app_nil_r. split; [reflexivity|split; [auto|reflexivity]]. }
    destruct X as (content & dt & d & -> & Hdt & ->). destruct (parse_usize content) as [m|] eqn:E; [|discriminate].
    intros H. injection H as <- <-. apply usize_spec in E as (sg & ds & -> & Hsg & Hd & -> & L). rewrite <- app_assoc. now constructor.
  - intros [sg ds dt d Hsg [Hne Hd] L Hdt].
    assert (E : parse_usize (sg ++ ds) = Some (digits_value ds)).
    { apply usize_spec. exists sg, ds. repeat split; auto. }
    destruct Hdt as [[-> ->]|[-> Hdt]].
    + rewrite app_nil_r. destruct (list_last_cases ds) as [->|(a & x & ->)]; [congruence|].
      assert (Hx : digit x) by (rewrite Forall_forall in Hd; apply Hd; rewrite in_app_iff; right; now left). unfold digit in Hx.
      replace (ends_with cTAB (sg ++ a ++ [x])) with false by (rewrite app_assoc, ends_with_snoc; lia).
      replace (ends_with cPIPE (sg ++ a ++ [x])) with false by (rewrite app_assoc, ends_with_snoc; lia).
      rewrite E. reflexivity.
    + rewrite app_assoc, !ends_with_snoc. unfold pop. rewrite removelast_last.
      destruct Hdt as [->| ->]; cbn [N.eqb Pos.eqb]; rewrite E; reflexivity.
Qed.
Lemma frame_length_not seg e : parse_bracket_segment seg DEFAULT_DELIMITER = Err e -> forall n dl, ~ frame_length seg n dl.
Proof. intros H n dl H'. apply frame_length_spec in H'. congruence. Qed.
Lemma frame_length_delim seg n dl : frame_length seg n dl -> plain_delim dl.
Proof. intros [sg ds dt d _ _ _ [[_ ->]|[_ [->| ->]]]]; split; discriminate. Qed.

Definition to_field (f : str * bool) : field_name := Field (fst f) (snd f).
Lemma field_spec t f :
  (let trimmed := trim t in let? name := parse_string_literal trimmed in Ok (Field name (starts_with cDQ trimmed))) = Ok f <->
  exists g, field_text t g /\ f = to_field g.
Proof.
  cbv zeta. assert (E : parse_string_literal (trim t) = parse_string_literal t) by (unfold parse_string_literal; now rewrite trim_idem).
  rewrite E. assert (Hb : starts_with cDQ (trim t) = true <-> begins cDQ t) by (rewrite trim_head, begins_spec by reflexivity; tauto).
  split.
  - destruct (parse_string_literal t) as [s|] eqn:El; [|discriminate]. cbn [bind]. intros H. injection H as <-.
    exists (s, starts_with cDQ (trim t)). split; [|reflexivity]. split; [now apply literal_spec|exact Hb].
  - intros ([s q] & [H1 H2] & ->). cbn [fst snd] in *. apply literal_spec in H1. rewrite H1. cbn [bind]. unfold to_field. cbn [fst snd].
    repeat f_equal. rewrite <- H2 in Hb. destruct q, (starts_with cDQ (trim t)); auto; destruct Hb as [Hb1 Hb2]; [discriminate (Hb2 eq_refl)|discriminate (Hb1 eq_refl)].
Qed.
Lemma fields_spec s dl fs : plain_delim dl ->
  (parse_fields s dl = Ok fs <-> exists ts l, cells dl s ts /\ Forall2 field_text ts l /\ fs = map to_field l).
Proof.
  intros [H1 H2]. unfold parse_fields. rewrite (map_result_iff _ _ field_spec). split.
  - intros H. assert (X : exists l, Forall2 field_text (parse_delimited_values s dl) l /\ fs = map to_field l).
    { induction H as [|t f ts fs (g & Hg & ->) H (l & Hl & ->)]; [exists []; split; [constructor|auto]|].
      exists (g :: l). split; [now constructor|reflexivity]. }
    destruct X as (l & Hl & ->). exists (parse_delimited_values s dl), l. split; auto. now apply cells_spec.
  - intros (ts & l & Hc & Hf & ->). apply cells_spec in Hc as <-; auto. induction Hf; cbn; constructor; eauto.
Qed.

(** * Headers *)

Definition to_header (h : head_line) : array_header :=
  Header (option_map fst (hl_key h)) (key_flag (hl_key h)) (hl_length h) (hl_delimiter h) (option_map (map to_field) (hl_fields h)).
Definition inline_of (tail : str) : option str := if is_empty (trim tail) then None else Some (trim tail).

Lemma no_header_frame s k len f t : frame s k len f t -> no_header s -> (exists key, frame_key k key) /\ forall n dl, ~ frame_length len n dl.
Proof. intros H [_ Hn]. eauto. Qed.

Lemma header_cases s :
  match parse_array_header_line s DEFAULT_DELIMITER with
  | Ok (Some (h, iv)) => ~ no_header s /\ exists hl tail, is_header s hl tail /\ h = to_header hl /\ iv = inline_of tail
  | Ok None => no_header s /\ forall hl tail, ~ is_header s hl tail
  | Err _ => ~ no_header s /\ forall hl tail, ~ is_header s hl tail
  end.
Proof.
  unfold parse_array_header_line. pose proof (bracket_spec s) as Hb.
  assert (Hnf : (forall k l f t, ~ frame s k l f t) -> closed s -> no_header s /\ forall hl tail, ~ is_header s hl tail).
  { intros H Hc. split; [split; [exact Hc|]|].
    - intros k l f t Hf. now destruct (H k l f t).
    - intros hl tail [k l f t key n dl fs Hf _ _ _ _]. exact (H _ _ _ _ Hf). }
  destruct (bracket_start_of s) as [[i|]|e]; cbn [bind].
  2: { destruct Hb as [Hc Hn]. apply Hnf; auto. intros k l f t (r & a & Hh & _). exact (Hn _ _ Hh). }
  2: { split; [intros [Hc _]; contradiction|]. intros hl tail [k l f t key n dl fs (r & a & Hh & _) _ _ _ _]. apply Hb.
       intros w r' E Hw. destruct Hh as [k0 r0 H1 _|w' b r0 E' Hw' Hq].
       - destruct H1. exists w, r'. auto.
       - rewrite E in E'. apply blank_quote in E' as [<- ->]; auto. exists b, (cLBRACK :: r0). auto. }
  destruct Hb as (Hc & k & r & Hh & ->). pose proof (head_length _ _ _ Hh) as Es.
  assert (Ef : find_from cRBRACK (length k) s = option_map (fun j => S (length k + j)) (find_char cRBRACK r)).
  { rewrite Es, find_from_at. cbn [find_char]. change (cLBRACK =? cRBRACK)%N with false. cbv iota.
    destruct (find_char cRBRACK r); cbn; [f_equal; lia|reflexivity]. }
  rewrite Ef. destruct (cut_cases cRBRACK r) as [Nr|(len & after & Hcut)].
  { apply find_char_None in Nr as Fr. rewrite Fr. cbn [option_map]. apply Hnf; auto.
    intros k' l f t (r' & a & Hh' & [Hl _] & _). destruct (head_fun _ _ _ _ _ Hh Hh') as [_ <-]. apply Nr. rewrite Hl, in_app_iff. right. now left. }
  rewrite (cut_find _ _ _ _ Hcut). cbn [option_map].
  assert (Es2 : s = (k ++ cLBRACK :: len ++ [cRBRACK]) ++ after).
  { rewrite Es. destruct Hcut as [-> _]. rewrite <- !app_assoc. cbn [app]. now rewrite <- app_assoc. }
  assert (L : S (S (length k + length len)) = length (k ++ cLBRACK :: len ++ [cRBRACK])).
  { rewrite app_length. cbn [length]. rewrite app_length. cbn. lia. }
  pose proof (fun dl => colon_spec (k ++ cLBRACK :: len ++ [cRBRACK]) after (S (length k + length len)) dl L) as Hcol.
  rewrite <- Es2 in Hcol. destruct (header_colon s (S (length k + length len))) as [ci|].
  2: { apply Hnf; auto. intros k' l f t (r' & a & Hh' & Hc' & Ht). destruct (head_fun _ _ _ _ _ Hh Hh') as [_ <-].
       destruct (cut_fun _ _ _ _ _ _ Hcut Hc') as [_ <-]. exact (Hcol DEFAULT_DELIMITER _ _ Ht). }
  destruct (Hcol DEFAULT_DELIMITER) as (f & t & Htp & Et & _).
  assert (Hfr : frame s k len f t) by (exists r, after; auto).
  assert (Hff : forall dl, header_fields s (S (length k + length len)) ci dl =
     match f with Some f => let? fs := parse_fields f dl in Ok (Some fs) | None => Ok None end).
  { intros dl. destruct (Hcol dl) as (f' & t' & Htp' & _ & E). destruct (tail_parts_fun _ _ _ _ _ Htp Htp') as [<- _]. exact E. }
  assert (Eslice : slice (S (length k)) (S (length k + length len)) s = len).
  { replace s with ((k ++ [cLBRACK]) ++ len ++ cRBRACK :: after) by (rewrite Es2, <- !app_assoc; cbn [app]; now rewrite <- app_assoc).
    replace (S (length k)) with (length (k ++ [cLBRACK])) by (rewrite app_length; cbn; lia).
    replace (S (length k + length len)) with (length (k ++ [cLBRACK]) + length len) by (rewrite app_length; cbn; lia). apply slice_at. }
  rewrite Eslice, Et. pose proof (frame_key_spec k (cLBRACK :: r)) as Hk. rewrite <- Es in Hk.
  assert (Hinv : forall hl tail, is_header s hl tail -> exists key n dl fs, hl = HeadLine key n dl fs /\ tail = t /\ frame_key k key /\
     frame_length len n dl /\ (n <= 100000000)%N /\
     match f, fs with Some f, Some l => exists ts, cells dl f ts /\ Forall2 field_text ts l | None, None => True | _, _ => False end).
  { intros hl tail [k' l' f' t' key n dl fs Hf' H1 H2 H3 H4]. destruct (frame_fun _ _ _ _ _ _ _ _ _ Hfr Hf') as (<- & <- & <- & <-).
    exists key, n, dl, fs. auto 8. }
  destruct (header_key s (length k)) as [[o q]|e] eqn:Ek; cbn [bind].
  2: { assert (X : forall key, ~ frame_key k key).
       { intros key H. assert (Y : @Err (option str * bool) e = Ok (option_map fst key, key_flag key)) by (apply (proj2 (Hk _ _)); eauto).
         discriminate. }
       split.
       - intros H. destruct (no_header_frame _ _ _ _ _ Hfr H) as ((key & H1) & _). exact (X _ H1).
       - intros hl tail H. apply Hinv in H as (key & n & dl & fs & _ & _ & H & _). exact (X _ H). }
  destruct (proj1 (Hk o q) eq_refl) as (key & Hkey & -> & ->).
  destruct (parse_bracket_segment len DEFAULT_DELIMITER) as [[n dl]|e] eqn:El.
  2: { pose proof (frame_length_not _ _ El) as Hnl. split.
       - split; [exact Hc|]. intros k' l' f' t' Hf'. destruct (frame_fun _ _ _ _ _ _ _ _ _ Hfr Hf') as (<- & <- & _). eauto.
       - intros hl tail H. apply Hinv in H as (key' & n & dl & fs & _ & _ & _ & H & _). exact (Hnl _ _ H). }
  apply frame_length_spec in El. assert (Hnn : ~ no_header s).
  { intros H. destruct (no_header_frame _ _ _ _ _ Hfr H) as (_ & H'). exact (H' _ _ El). }
  assert (Hlf : forall n' dl', frame_length len n' dl' -> n' = n /\ dl' = dl).
  { intros n' dl' H'. apply frame_length_spec in El, H'. rewrite El in H'. injection H' as <- <-. auto. }
  assert (Hkf : forall key', frame_key k key' -> key' = key).
  { intros key' H'. assert (Y : Ok (option_map fst key, key_flag key) = Ok (option_map fst key', key_flag key')) by (apply (proj2 (Hk _ _)); eauto).
    injection Y as E1 E2. destruct key as [[a b]|], key' as [[a' b']|]; cbn in *; congruence. }
  destruct (N.ltb_spec MAX_DECLARED_ARRAY_LENGTH n) as [Hbig|Hsmall].
  { split; auto. intros hl tail H. apply Hinv in H as (key' & n' & dl' & fs & _ & _ & _ & H & H' & _). apply Hlf in H as [-> _].
    unfold MAX_DECLARED_ARRAY_LENGTH in Hbig. lia. }
  rewrite Hff. pose proof (frame_length_delim _ _ _ El) as Hpd. destruct f as [f|].
  - destruct (parse_fields f dl) as [fs|e] eqn:Epf; cbn [bind].
    + split; auto. apply fields_spec in Epf as (ts & l & Hcl & Hfl & ->); auto. exists (HeadLine key n dl (Some l)), t.
      split; [|split; reflexivity]. apply (ih_intro _ k len (Some f) t); auto. exists ts. auto.
    + split; auto. intros hl tail H. apply Hinv in H as (key' & n' & dl' & fs & _ & _ & _ & H & _ & H'). apply Hlf in H as [-> ->].
      destruct fs as [l|]; [|exact H']. destruct H' as (ts & Hcl & Hfl).
      assert (Y : parse_fields f dl = Ok (map to_field l)) by (apply fields_spec; eauto). congruence.
  - cbn [bind]. split; auto. exists (HeadLine key n dl None), t. split; [|split; reflexivity]. now apply (ih_intro _ k len None t).
Qed.
