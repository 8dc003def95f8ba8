(** The byte level and the character level agree: the same answers, no panic. *)
From Verif Require Import Chars Floats Json Shared Scanner Parser DecValidation Decoders Utf8 Utf8Proof ByteLevel.

Local Open Scope nat_scope.

Definition scalars (s : str) : Prop := Forall scalar s.
(** The byte index of a character index. *)
Definition off (s : str) (i : nat) : nat := length (utf8 (firstn i s)).

(** * UTF-8 *)
Lemma utf8_ascii c : (c < 128)%N -> utf8_char c = [c].
Proof. intros H. unfold utf8_char. now destruct (N.ltb_spec c 128); [|lia]. Qed.
Definition high (b : bytes) : Prop := Forall (fun x => (128 <= x)%N) b.
Lemma utf8_high c : (128 <= c)%N -> exists h t, utf8_char c = h :: t /\ (192 <= h)%N /\ high t.
Proof.
  intros H. unfold utf8_char. destruct (N.ltb_spec c 128); [lia|].
  destruct (N.ltb_spec c 2048); [|destruct (N.ltb_spec c 65536)]; eexists _, _;
    (split; [reflexivity|]); (split; [|repeat (constructor; [generalize (N.le_0_l (c mod 64)), (N.le_0_l (c / 64 mod 64)), (N.le_0_l (c / 4096 mod 64)); lia|])]).
  - generalize (N.le_0_l (c / 64)). lia.
  - constructor.
  - generalize (N.le_0_l (c / 4096)). lia.
  - constructor.
  - generalize (N.le_0_l (c / 262144)). lia.
  - constructor.
Qed.
(** Any character: a first byte that starts a character, then bytes that match nothing. *)
Lemma utf8_cases c : exists h t, utf8_char c = h :: t /\ cont h = false /\ high t /\
  ((c < 128)%N /\ h = c /\ t = [] \/ (128 <= c)%N /\ (192 <= h)%N).
Proof.
  destruct (N.ltb_spec c 128) as [H|H].
  - exists c, []. rewrite utf8_ascii by exact H. repeat split; [unfold cont; lia|constructor|auto].
  - destruct (utf8_high c H) as (h & t & -> & L & Ht). exists h, t. repeat split; [unfold cont; lia|exact Ht|auto].
Qed.
Lemma utf8_nil s : utf8 s = [] -> s = [].
Proof. destruct s as [|c s]; [reflexivity|]. rewrite utf8_cons. destruct (utf8_cases c) as (h & t & -> & _). discriminate. Qed.
Lemma is_empty_utf8 s : is_empty (utf8 s) = is_empty s.
Proof. destruct s as [|c s]; [reflexivity|]. rewrite utf8_cons. destruct (utf8_cases c) as (h & t & -> & _). reflexivity. Qed.
Lemma chars_utf8 s : scalars s -> chars (utf8 s) = s.
Proof. intros H. unfold chars. now rewrite from_utf8_utf8. Qed.

(** * Offsets *)
Lemma skipn_skipn {A} x y (l : list A) : skipn x (skipn y l) = skipn (x + y) l.
Proof. revert l. rewrite Nat.add_comm. induction y as [|y IH]; intros l; [reflexivity|]. destruct l; [now rewrite skipn_nil|]. cbn. apply IH. Qed.
Lemma off_split s i : length (utf8 s) = off s i + length (utf8 (skipn i s)).
Proof. unfold off. rewrite <- app_length, <- utf8_app. now rewrite firstn_skipn. Qed.
Lemma off_0 s : off s 0 = 0.
Proof. reflexivity. Qed.
Lemma off_all s i : length s <= i -> off s i = length (utf8 s).
Proof. intros H. unfold off. now rewrite firstn_all2. Qed.
Lemma firstn_add {A} i j (s : list A) : firstn (i + j) s = firstn i s ++ firstn j (skipn i s).
Proof. revert s. induction i as [|i IH]; intros [|x s]; cbn; try reflexivity; [now rewrite firstn_nil|]. now rewrite IH. Qed.
Lemma off_add s i k : off s (i + k) = off s i + off (skipn i s) k.
Proof. unfold off. now rewrite firstn_add, utf8_app, app_length. Qed.
Lemma skipn_off s i : skipn (off s i) (utf8 s) = utf8 (skipn i s).
Proof.
  rewrite <- (firstn_skipn i s) at 2. rewrite utf8_app. unfold off.
  rewrite skipn_app, skipn_all, Nat.sub_diag. reflexivity.
Qed.
Lemma firstn_off s i : firstn (off s i) (utf8 s) = utf8 (firstn i s).
Proof.
  rewrite <- (firstn_skipn i s) at 2. rewrite utf8_app. unfold off.
  rewrite firstn_app, firstn_all, Nat.sub_diag, firstn_O. apply app_nil_r.
Qed.
Lemma nth_split_at {A} (s : list A) i c : nth_error s i = Some c -> skipn i s = c :: skipn (S i) s.
Proof. revert s. induction i as [|i IH]; intros [|x s] H; try discriminate; [now injection H as ->|]. cbn. now apply IH. Qed.
Lemma off_S s i c : nth_error s i = Some c -> off s (S i) = off s i + length (utf8_char c).
Proof.
  intros H. replace (S i) with (i + 1) by lia. rewrite off_add. rewrite (nth_split_at _ _ _ H).
  unfold off at 2. cbn [firstn]. rewrite utf8_cons. now rewrite app_nil_r.
Qed.
Lemma off_S_ascii s i c : nth_error s i = Some c -> (c < 128)%N -> off s (S i) = off s i + 1.
Proof. intros H L. rewrite (off_S _ _ _ H), utf8_ascii by exact L. reflexivity. Qed.
Lemma off_lt s i j : i < j -> i < length s -> off s i < off s j.
Proof.
  intros H L. replace j with (i + (j - i)) by lia. rewrite off_add.
  destruct (nth_error s i) as [c|] eqn:E; [|apply nth_error_None in E; lia].
  rewrite (nth_split_at _ _ _ E). destruct (j - i) as [|k] eqn:F; [lia|]. unfold off at 3. cbn [firstn].
  rewrite utf8_cons, app_length. destruct (utf8_cases c) as (h & t & -> & _). cbn. lia.
Qed.
Lemma off_le s i j : i <= j -> off s i <= off s j.
Proof. intros H. replace j with (i + (j - i)) by lia. rewrite off_add. lia. Qed.
Lemma off_ltb s i j : i < length s -> j < length s -> (off s i <? off s j) = (i <? j).
Proof.
  intros Hi Hj. destruct (Nat.ltb_spec i j) as [H|H].
  - apply Nat.ltb_lt. now apply off_lt.
  - apply Nat.ltb_ge. now apply off_le.
Qed.

(** * Slices *)
Lemma nth_error_skipn {A} (b : list A) : forall i k, nth_error (skipn i b) k = nth_error b (i + k).
Proof. induction b as [|x b IH]; intros [|i] k; cbn; try reflexivity; [now destruct k|apply IH]. Qed.
Lemma bat_off p s i : bat p (utf8 s) (off s i) = bat p (utf8 (skipn i s)) 0.
Proof. unfold bat. rewrite <- skipn_off, nth_error_skipn. now rewrite Nat.add_0_r. Qed.
Lemma boundary_off s i : boundary (utf8 s) (off s i) = true.
Proof.
  unfold boundary. rewrite bat_off. destruct (skipn i s) as [|c r] eqn:E.
  - replace (off s i =? length (utf8 s)) with true; [now rewrite orb_true_r|].
    symmetry. apply Nat.eqb_eq. rewrite (off_split s i), E. cbn. lia.
  - rewrite utf8_cons. destruct (utf8_cases c) as (h & t & -> & C & _). cbn. rewrite C. apply orb_true_r.
Qed.
Lemma bslice_off s i j : i <= j -> bslice (utf8 s) (off s i) (off s j) = Ok (utf8 (slice i j s)).
Proof.
  intros H. unfold bslice. rewrite !boundary_off. pose proof (off_le s i j H) as L.
  destruct (Nat.leb_spec (off s i) (off s j)); [|lia]. cbn [andb]. f_equal.
  rewrite skipn_off. replace (off s j - off s i) with (off (skipn i s) (j - i)).
  - apply firstn_off.
  - pose proof (off_add s i (j - i)) as E. replace (i + (j - i)) with j in E by lia. lia.
Qed.
Lemma bfrom_off s i : bfrom (utf8 s) (off s i) = Ok (utf8 (skipn i s)).
Proof.
  unfold bfrom. rewrite (off_split s i). unfold bslice. rewrite boundary_off, <- off_split.
  destruct (Nat.leb_spec (off s i) (length (utf8 s))) as [L|L]; [|rewrite (off_split s i) in L; lia].
  unfold boundary at 1. rewrite Nat.eqb_refl, orb_true_r. cbn [orb andb]. f_equal.
  rewrite skipn_off. rewrite (off_split s i). rewrite Nat.add_comm, Nat.add_sub. apply firstn_all.
Qed.
Lemma bto_off s j : bto (utf8 s) (off s j) = Ok (utf8 (firstn j s)).
Proof.
  unfold bto. rewrite <- (off_0 s). rewrite bslice_off by lia. unfold slice. now rewrite Nat.sub_0_r.
Qed.

(** * Searching *)
Lemma find_high c p l : (c < 128)%N -> high p -> find_char c (p ++ l) = option_map (fun k => length p + k) (find_char c l).
Proof.
  intros Hc. induction 1 as [|x p Hx _ IH]; [cbn; now destruct (find_char c l)|].
  cbn [app find_char length]. destruct (N.eqb_spec x c); [lia|]. rewrite IH. now destruct (find_char c l).
Qed.
Lemma bfind_utf8 c s : (c < 128)%N -> bfind c (utf8 s) = option_map (off s) (find_char c s).
Proof.
  intros Hc. unfold bfind. induction s as [|x s IH]; [reflexivity|]. rewrite utf8_cons.
  destruct (utf8_cases x) as (h & t & E & C & Ht & K). rewrite E. cbn [app find_char].
  assert (O : forall k, off (x :: s) (S k) = S (length t) + off s k).
  { intros k. unfold off. cbn [firstn]. rewrite utf8_cons, app_length, E. reflexivity. }
  destruct (N.eqb_spec x c) as [->|N].
  - destruct K as [(L & -> & ->)|(L & _)]; [|lia]. rewrite N.eqb_refl. reflexivity.
  - destruct (N.eqb_spec h c); [destruct K as [(L & -> & _)|(L & M)]; [congruence|lia]|].
    rewrite find_high by assumption. rewrite IH. destruct (find_char c s) as [k|]; [|reflexivity]. cbn [option_map]. rewrite O. reflexivity.
Qed.
Lemma bcontains_utf8 c s : (c < 128)%N -> bcontains c (utf8 s) = contains c s.
Proof.
  intros Hc. unfold bcontains. rewrite bfind_utf8 by exact Hc. unfold contains.
  induction s as [|x s IH]; [reflexivity|]. cbn [find_char existsb]. rewrite (N.eqb_sym c x).
  destruct (x =? c)%N; [reflexivity|]. cbn [orb]. rewrite <- IH. now destruct (find_char c s).
Qed.
Lemma bstarts_utf8 c s : (c < 128)%N -> bstarts c (utf8 s) = starts_with c s.
Proof.
  intros Hc. unfold bstarts, bat. destruct s as [|x s]; [reflexivity|]. rewrite utf8_cons.
  destruct (utf8_cases x) as (h & t & -> & C & Ht & K). cbn. destruct K as [(L & -> & _)|(L & M)].
  - apply N.eqb_sym.
  - destruct (N.eqb_spec c h), (N.eqb_spec x c); lia.
Qed.
Lemma bfind_from_off c i s : (c < 128)%N ->
  bfind_from c (off s i) (utf8 s) = Ok (option_map (off s) (find_from c i s)).
Proof.
  intros Hc. unfold bfind_from, find_from. rewrite bfrom_off. cbn [bind]. rewrite bfind_utf8 by exact Hc.
  destruct (find_char c (skipn i s)) as [k|]; [|reflexivity]. cbn [option_map]. now rewrite off_add.
Qed.
Lemma find_char_nth c s : forall k, find_char c s = Some k -> nth_error s k = Some c.
Proof.
  induction s as [|x s IH]; intros k H; [discriminate|]. cbn in H. destruct (N.eqb_spec x c) as [->|N].
  - now injection H as <-.
  - destruct (find_char c s) as [j|]; [|discriminate]. injection H as <-. cbn. now apply IH.
Qed.
Lemma find_from_nth c i s k : find_from c i s = Some k -> nth_error s k = Some c /\ i <= k.
Proof.
  unfold find_from. destruct (find_char c (skipn i s)) as [j|] eqn:E; [|discriminate]. intros H. injection H as <-.
  apply find_char_nth in E. rewrite nth_error_skipn in E. split; [exact E|lia].
Qed.
Lemma nth_lt {A} (s : list A) k c : nth_error s k = Some c -> k < length s.
Proof. intros H. apply nth_error_Some. now rewrite H. Qed.

(** * Quotes *)
Lemma bclosing_loop_eq b : forall fuel i, length b - i < fuel -> bclosing_loop fuel b i = Ok (scan_quote (skipn i b) i).
Proof.
  induction fuel as [|fuel IH]; intros i H; [lia|]. cbn [bclosing_loop].
  destruct (Nat.ltb_spec i (length b)) as [L|L]; [|now rewrite skipn_all2 by lia].
  unfold bget. destruct (nth_error b i) as [x|] eqn:E; [|apply nth_error_None in E; lia]. cbn [bind].
  rewrite (nth_split_at _ _ _ E).
  destruct (Nat.ltb_spec (i + 1) (length b)) as [M|M].
  - destruct (nth_error b (S i)) as [y|] eqn:F; [|apply nth_error_None in F; lia].
    pose proof (nth_split_at _ _ _ F) as G. rewrite G. cbn [scan_quote]. rewrite andb_true_r.
    destruct (x =? cBSLASH)%N; [rewrite IH by lia; now replace (i + 2) with (S (S i)) by lia|].
    destruct (x =? cDQ)%N; [reflexivity|]. rewrite IH by lia. replace (i + 1) with (S i) by lia. now rewrite G.
  - rewrite skipn_all2 with (n := S i) by lia. rewrite andb_false_r. cbn [scan_quote].
    destruct (x =? cDQ)%N; [reflexivity|]. rewrite IH by lia. now rewrite skipn_all2 by lia.
Qed.
Lemma scan_quote_cons c r i : scan_quote (c :: r) i =
  match r with
  | _ :: r' => if (c =? cBSLASH)%N then scan_quote r' (S (S i)) else if (c =? cDQ)%N then Some i else scan_quote r (S i)
  | [] => if (c =? cDQ)%N then Some i else None
  end.
Proof. destruct r; reflexivity. Qed.
Lemma scan_quote_high p l : high p -> forall i, scan_quote (p ++ l) i = scan_quote l (length p + i).
Proof.
  induction 1 as [|x p Hx _ IH]; intros i; [reflexivity|]. cbn [app length]. rewrite scan_quote_cons.
  destruct (N.eqb_spec x cBSLASH); [lia|]. destruct (N.eqb_spec x cDQ); [lia|].
  specialize (IH (S i)). replace (length p + S i) with (S (length p) + i) in IH by lia. rewrite <- IH.
  now destruct (p ++ l).
Qed.
Lemma scan_quote_utf8 s : forall i j, scan_quote (utf8 s) j = option_map (fun k => j + off s (k - i)) (scan_quote s i).
Proof.
  remember (length s) as n eqn:Hn. revert s Hn. induction n as [n IH] using lt_wf_ind. intros s -> i j.
  destruct s as [|c r]; [reflexivity|]. rewrite utf8_cons. destruct (utf8_cases c) as (h & t & E & C & Ht & K).
  assert (G : forall s' i', scan_quote s' i' = None \/ exists k, scan_quote s' i' = Some k /\ i' <= k).
  { clear. intros s'. remember (length s') as n eqn:Hn. revert s' Hn. induction n as [n IH] using lt_wf_ind. intros s' -> i'.
    destruct s' as [|c r]; [now left|]. rewrite scan_quote_cons. destruct r as [|d r].
    - destruct (c =? cDQ)%N; [right; eauto|now left].
    - destruct (c =? cBSLASH)%N.
      + destruct (IH (length r) ltac:(cbn; lia) r eq_refl (S (S i'))) as [->|(k & -> & L)]; [now left|right; exists k; split; [reflexivity|lia]].
      + destruct (c =? cDQ)%N; [right; eauto|].
        destruct (IH (length (d :: r)) ltac:(cbn; lia) (d :: r) eq_refl (S i')) as [->|(k & -> & L)]; [now left|right; exists k; split; [reflexivity|lia]]. }
  rewrite scan_quote_cons. destruct K as [(L & -> & ->)|(L & M)].
  - rewrite E. cbn [app]. rewrite scan_quote_cons. destruct r as [|d r].
    + cbn [utf8 flat_map]. destruct (c =? cDQ)%N; [|reflexivity]. cbn. f_equal. rewrite Nat.sub_diag. rewrite off_0. lia.
    + rewrite utf8_cons. destruct (utf8_cases d) as (h & t & E' & C' & Ht' & K'). rewrite E'. cbn [app].
      destruct (c =? cBSLASH)%N.
      * rewrite scan_quote_high by exact Ht'. rewrite (IH (length r) ltac:(cbn; lia) r eq_refl (S (S i))).
        destruct (G r (S (S i))) as [->|(k & -> & Lk)]; [reflexivity|]. cbn. f_equal.
        replace (k - i) with (S (S (k - S (S i)))) by lia. unfold off. cbn [firstn]. rewrite !utf8_cons, E, E', !app_length. cbn. lia.
      * destruct (c =? cDQ)%N; [cbn; f_equal; rewrite Nat.sub_diag, off_0; lia|].
        pose proof (IH (length (d :: r)) ltac:(cbn; lia) (d :: r) eq_refl (S i) (S j)) as I. rewrite utf8_cons, E' in I. cbn [app] in I.
        rewrite I. destruct (G (d :: r) (S i)) as [->|(k & -> & Lk)]; [reflexivity|]. cbn [option_map]. f_equal.
        replace (k - i) with (S (k - S i)) by lia. unfold off. cbn [firstn]. rewrite (utf8_cons c), E, app_length. cbn [length]. lia.
  - assert (HH : high (utf8_char c)) by (rewrite E; constructor; [lia|exact Ht]).
    rewrite scan_quote_high by exact HH.
    assert (S1 : match r with
                 | [] => if (c =? cDQ)%N then Some i else None
                 | _ :: r' => if (c =? cBSLASH)%N then scan_quote r' (S (S i)) else if (c =? cDQ)%N then Some i else scan_quote r (S i)
                 end = scan_quote r (S i)).
    { destruct (N.eqb_spec c cBSLASH); [lia|]. destruct (N.eqb_spec c cDQ); [lia|]. now destruct r. }
    rewrite S1. rewrite (IH (length r) ltac:(cbn; lia) r eq_refl (S i)).
    destruct (G r (S i)) as [->|(k & -> & Lk)]; [reflexivity|]. cbn. f_equal.
    replace (k - i) with (S (k - S i)) by lia. unfold off. cbn [firstn]. rewrite utf8_cons, app_length. lia.
Qed.
Lemma scan_quote_shift s i j : scan_quote s (i + j) = option_map (fun k => i + k) (scan_quote s j).
Proof.
  revert j. remember (length s) as n eqn:Hn. revert s Hn. induction n as [n IH] using lt_wf_ind. intros s -> j.
  destruct s as [|c r]; [reflexivity|]. rewrite !scan_quote_cons. destruct r as [|d r].
  - now destruct (c =? cDQ)%N.
  - destruct (c =? cBSLASH)%N; [|destruct (c =? cDQ)%N; [reflexivity|]].
    + rewrite <- (IH (length r) ltac:(cbn; lia) r eq_refl). now replace (i + S (S j)) with (S (S (i + j))) by lia.
    + rewrite <- (IH (length (d :: r)) ltac:(cbn; lia) (d :: r) eq_refl). now replace (i + S j) with (S (i + j)) by lia.
Qed.
Lemma closing_utf8 s start : bfind_closing_quote (utf8 s) (off s start) = Ok (option_map (off s) (find_closing_quote s start)).
Proof.
  unfold bfind_closing_quote, find_closing_quote. destruct (Nat.leb_spec (length s) start) as [L|L].
  - rewrite off_all by lia. now rewrite Nat.leb_refl.
  - pose proof (off_lt s start (length s) L L) as M. rewrite (off_all s (length s)) in M by lia.
    destruct (Nat.leb_spec (length (utf8 s)) (off s start)); [lia|]. rewrite bclosing_loop_eq by lia. f_equal.
    destruct (nth_error s start) as [c|] eqn:E; [|apply nth_error_None in E; lia].
    pose proof (off_S _ _ _ E) as O. pose proof (skipn_off s start) as K. rewrite (nth_split_at _ _ _ E), utf8_cons in K.
    destruct (utf8_cases c) as (h & t & Ec & C & Ht & _). rewrite Ec in O, K. cbn [length app] in O, K.
    assert (K1 : skipn (off s start + 1) (utf8 s) = t ++ utf8 (skipn (S start) s)).
    { rewrite Nat.add_comm. rewrite <- (skipn_skipn 1 (off s start)), K. reflexivity. }
    rewrite K1, scan_quote_high by exact Ht. rewrite (scan_quote_utf8 _ 0). cbv beta.
    pose proof (scan_quote_shift (skipn (S start) s) (S start) 0) as Sh. rewrite Nat.add_0_r in Sh. rewrite Sh.
    destruct (scan_quote (skipn (S start) s) 0) as [k|]; [|reflexivity]. cbn [option_map]. f_equal.
    rewrite Nat.sub_0_r, off_add. lia.
Qed.
Lemma scan_quote_nth s : forall i k, scan_quote s i = Some k -> i <= k /\ nth_error s (k - i) = Some cDQ.
Proof.
  remember (length s) as n eqn:Hn. revert s Hn. induction n as [n IH] using lt_wf_ind. intros s -> i k H.
  destruct s as [|c r]; [discriminate|]. rewrite scan_quote_cons in H.
  assert (D : (c =? cDQ)%N = true -> Some i = Some k -> i <= k /\ nth_error (c :: r) (k - i) = Some cDQ).
  { intros D X. injection X as <-. rewrite Nat.sub_diag. apply N.eqb_eq in D as ->. auto. }
  destruct r as [|d r].
  - destruct (c =? cDQ)%N; [now apply D|discriminate].
  - destruct (c =? cBSLASH)%N.
    + destruct (IH (length r) ltac:(cbn; lia) r eq_refl _ _ H) as [L N]. split; [lia|]. replace (k - i) with (S (S (k - S (S i)))) by lia. exact N.
    + destruct (c =? cDQ)%N; [now apply D|].
      destruct (IH (length (d :: r)) ltac:(cbn; lia) (d :: r) eq_refl _ _ H) as [L N]. split; [lia|]. replace (k - i) with (S (k - S i)) by lia. exact N.
Qed.
Lemma closing_nth s start k : find_closing_quote s start = Some k -> start < k /\ nth_error s k = Some cDQ.
Proof.
  unfold find_closing_quote. destruct (Nat.leb (length s) start); [discriminate|]. intros H.
  apply scan_quote_nth in H as [L N]. rewrite nth_error_skipn in N. replace (S start + (k - S start)) with k in N by lia. split; [lia|exact N].
Qed.

(** * Characters outside quotes *)
Lemma scan_unquoted_cons target c r q i : scan_unquoted target (c :: r) q i =
  let step := if (c =? cDQ)%N then scan_unquoted target r (negb q) (S i)
              else if (c =? target)%N && negb q then Some i else scan_unquoted target r q (S i) in
  match r with
  | _ :: r' => if q && (c =? cBSLASH)%N then scan_unquoted target r' q (S (S i)) else step
  | [] => step
  end.
Proof. destruct r; reflexivity. Qed.
Lemma bunquoted_loop_eq target b : forall fuel i q, length b - i < fuel ->
  bunquoted_loop fuel target b i q = Ok (scan_unquoted target (skipn i b) q i).
Proof.
  induction fuel as [|fuel IH]; intros i q H; [lia|]. cbn [bunquoted_loop].
  destruct (Nat.ltb_spec i (length b)) as [L|L]; [|now rewrite skipn_all2 by lia].
  unfold bget. destruct (nth_error b i) as [x|] eqn:E; [|apply nth_error_None in E; lia]. cbn [bind].
  rewrite (nth_split_at _ _ _ E), scan_unquoted_cons. cbv zeta. replace (i + 1) with (S i) by lia. replace (i + 2) with (S (S i)) by lia.
  assert (St : (if (x =? cDQ)%N then bunquoted_loop fuel target b (S i) (negb q)
                else if (x =? target)%N && negb q then Ok (Some i) else bunquoted_loop fuel target b (S i) q) =
               Ok (if (x =? cDQ)%N then scan_unquoted target (skipn (S i) b) (negb q) (S i)
                   else if (x =? target)%N && negb q then Some i else scan_unquoted target (skipn (S i) b) q (S i))).
  { destruct (x =? cDQ)%N; [now rewrite IH by lia|]. destruct ((x =? target)%N && negb q); [reflexivity|]. now rewrite IH by lia. }
  destruct (Nat.ltb_spec (S i) (length b)) as [M|M].
  - rewrite andb_true_r. destruct (nth_error b (S i)) as [y|] eqn:F; [|apply nth_error_None in F; lia].
    pose proof (nth_split_at _ _ _ F) as G. destruct (q && (x =? cBSLASH)%N); [|rewrite G; rewrite G in St; exact St].
    rewrite IH by lia. now rewrite G.
  - rewrite andb_false_r. rewrite St. rewrite skipn_all2 by lia. reflexivity.
Qed.
Lemma scan_unquoted_high target p l : (target < 128)%N -> high p -> forall q i, scan_unquoted target (p ++ l) q i = scan_unquoted target l q (length p + i).
Proof.
  intros Ht. induction 1 as [|x p Hx _ IH]; intros q i; [reflexivity|]. cbn [app length]. rewrite scan_unquoted_cons. cbv zeta.
  destruct (N.eqb_spec x cBSLASH); [lia|]. destruct (N.eqb_spec x cDQ); [lia|]. destruct (N.eqb_spec x target); [lia|].
  rewrite andb_false_r. cbn [andb]. rewrite IH. replace (length p + S i) with (S (length p) + i) by lia. now destruct (p ++ l).
Qed.
Lemma scan_unquoted_shift target s : forall q i j, scan_unquoted target s q (i + j) = option_map (fun k => i + k) (scan_unquoted target s q j).
Proof.
  remember (length s) as n eqn:Hn. revert s Hn. induction n as [n IH] using lt_wf_ind. intros s -> q i j.
  destruct s as [|c r]; [reflexivity|]. rewrite !scan_unquoted_cons. cbv zeta.
  assert (I1 : forall q', scan_unquoted target r q' (S (i + j)) = option_map (fun k => i + k) (scan_unquoted target r q' (S j))).
  { intros q'. rewrite <- (IH (length r) ltac:(cbn; lia) r eq_refl). f_equal. lia. }
  rewrite !I1. destruct r as [|d r].
  - destruct (c =? cDQ)%N; [reflexivity|]. now destruct ((c =? target)%N && negb q).
  - destruct (q && (c =? cBSLASH)%N).
    + rewrite <- (IH (length r) ltac:(cbn; lia) r eq_refl). f_equal. lia.
    + destruct (c =? cDQ)%N; [reflexivity|]. now destruct ((c =? target)%N && negb q).
Qed.
Lemma off_cons c s k : off (c :: s) (S k) = length (utf8_char c) + off s k.
Proof. unfold off. cbn [firstn]. now rewrite utf8_cons, app_length. Qed.
Lemma scan_unquoted_utf8 target s : (target < 128)%N -> forall q, scan_unquoted target (utf8 s) q 0 = option_map (off s) (scan_unquoted target s q 0).
Proof.
  intros Ht. remember (length s) as n eqn:Hn. revert s Hn. induction n as [n IH] using lt_wf_ind. intros s -> q.
  destruct s as [|c r]; [reflexivity|]. rewrite utf8_cons.
  assert (I1 : forall q', scan_unquoted target (utf8 r) q' (length (utf8_char c)) = option_map (off (c :: r)) (scan_unquoted target r q' 1)).
  { intros q'. rewrite <- (Nat.add_0_r (length (utf8_char c))). rewrite scan_unquoted_shift, (IH (length r) ltac:(cbn; lia) r eq_refl).
    change (scan_unquoted target r q' 1) with (scan_unquoted target r q' (1 + 0)). rewrite (scan_unquoted_shift target r q' 1 0). destruct (scan_unquoted target r q' 0) as [k|]; [|reflexivity]. cbn [option_map].
    change (1 + k) with (S k). now rewrite off_cons. }
  destruct (utf8_cases c) as (h & t & E & C & Hh & K). rewrite (scan_unquoted_cons target c). cbv zeta.
  destruct K as [(L & -> & ->)|(L & M)].
  - rewrite E in *. cbn [app length] in *. rewrite scan_unquoted_cons. cbv zeta. rewrite !I1.
    destruct r as [|d r].
    + cbn [utf8 flat_map]. destruct (c =? cDQ)%N; [reflexivity|]. now destruct ((c =? target)%N && negb q).
    + rewrite utf8_cons. destruct (utf8_cases d) as (h & t & E' & C' & Ht' & K'). rewrite E'. cbn [app].
      destruct (q && (c =? cBSLASH)%N).
      * rewrite scan_unquoted_high by assumption. rewrite scan_unquoted_shift.
        change (scan_unquoted target r q 2) with (scan_unquoted target r q (2 + 0)).
        change (scan_unquoted target (utf8 r) q 2) with (scan_unquoted target (utf8 r) q (2 + 0)).
        rewrite (scan_unquoted_shift target r q 2 0), (scan_unquoted_shift target (utf8 r) q 2 0), (IH (length r) ltac:(cbn; lia) r eq_refl).
        destruct (scan_unquoted target r q 0) as [k|]; [|reflexivity]. cbn [option_map]. f_equal.
        change (2 + k) with (S (S k)). rewrite !off_cons, E, E'. cbn. lia.
      * destruct (c =? cDQ)%N; [reflexivity|]. now destruct ((c =? target)%N && negb q).
  - assert (HH : high (utf8_char c)) by (rewrite E; constructor; [lia|exact Hh]).
    rewrite scan_unquoted_high by assumption. rewrite Nat.add_0_r, I1.
    destruct (N.eqb_spec c cBSLASH); [lia|]. destruct (N.eqb_spec c cDQ); [lia|]. destruct (N.eqb_spec c target); [lia|].
    rewrite andb_false_r. cbn [andb]. now destruct r.
Qed.
Lemma unquoted_utf8 s target : bfind_unquoted_char (utf8 s) target 0 = Ok (option_map (off s) (find_unquoted_char s target 0)).
Proof.
  unfold bfind_unquoted_char, find_unquoted_char. destruct (N.leb_spec 128 target); [reflexivity|].
  rewrite bunquoted_loop_eq by lia. cbn [skipn]. now rewrite scan_unquoted_utf8 by assumption.
Qed.
Lemma scan_unquoted_nth target s : forall q i k, scan_unquoted target s q i = Some k -> i <= k /\ nth_error s (k - i) = Some target.
Proof.
  remember (length s) as n eqn:Hn. revert s Hn. induction n as [n IH] using lt_wf_ind. intros s -> q i k H.
  destruct s as [|c r]; [discriminate|]. rewrite scan_unquoted_cons in H. cbv zeta in H.
  assert (I1 : forall q', scan_unquoted target r q' (S i) = Some k -> i <= k /\ nth_error (c :: r) (k - i) = Some target).
  { intros q' X. destruct (IH (length r) ltac:(cbn; lia) r eq_refl _ _ _ X) as [L N]. split; [lia|]. now replace (k - i) with (S (k - S i)) by lia. }
  assert (St : (if (c =? cDQ)%N then scan_unquoted target r (negb q) (S i)
                else if (c =? target)%N && negb q then Some i else scan_unquoted target r q (S i)) = Some k ->
               i <= k /\ nth_error (c :: r) (k - i) = Some target).
  { intros X. destruct (c =? cDQ)%N; [now apply (I1 (negb q))|]. destruct ((c =? target)%N && negb q) eqn:B; [|now apply (I1 q)].
    injection X as <-. rewrite Nat.sub_diag. apply andb_prop in B as [B _]. apply N.eqb_eq in B as ->. auto. }
  destruct r as [|d r]; [now apply St|]. destruct (q && (c =? cBSLASH)%N); [|now apply St].
  destruct (IH (length r) ltac:(cbn; lia) r eq_refl _ _ _ H) as [L N]. split; [lia|]. now replace (k - i) with (S (S (k - S (S i)))) by lia.
Qed.
Lemma unquoted_lt s target k : find_unquoted_char s target 0 = Some k -> k < length s.
Proof.
  unfold find_unquoted_char. destruct (128 <=? target)%N; [discriminate|]. cbn [skipn]. intros H.
  apply scan_unquoted_nth in H as [_ H]. rewrite Nat.sub_0_r in H. now apply nth_lt in H.
Qed.

(** * Trimming *)
Lemma scalars_firstn i s : scalars s -> scalars (firstn i s).
Proof. unfold scalars. intros H. apply Forall_forall. intros x Hx. rewrite Forall_forall in H. apply H. rewrite <- (firstn_skipn i s). apply in_or_app. now left. Qed.
Lemma scalars_skipn i s : scalars s -> scalars (skipn i s).
Proof. unfold scalars. intros H. apply Forall_forall. intros x Hx. rewrite Forall_forall in H. apply H. rewrite <- (firstn_skipn i s). apply in_or_app. now right. Qed.
Lemma scalars_slice i j s : scalars s -> scalars (slice i j s).
Proof. intros H. now apply scalars_firstn, scalars_skipn. Qed.
Lemma scalars_trim_start s : scalars s -> scalars (trim_start s).
Proof. induction 1 as [|c s Hc Hs IH]; [constructor|]. cbn. destruct (is_ws c); [exact IH|now constructor]. Qed.
Lemma scalars_rev s : scalars s -> scalars (rev s).
Proof. apply Forall_rev. Qed.
Lemma scalars_trim s : scalars s -> scalars (trim s).
Proof. intros H. unfold trim, trim_end. now apply scalars_rev, scalars_trim_start, scalars_rev, scalars_trim_start. Qed.
Lemma btrim_utf8 s : scalars s -> btrim (utf8 s) = utf8 (trim s).
Proof. intros H. unfold btrim. now rewrite chars_utf8. Qed.
Lemma btrim_start_utf8 s : scalars s -> btrim_start (utf8 s) = utf8 (trim_start s).
Proof. intros H. unfold btrim_start. now rewrite chars_utf8. Qed.

(** * Numbers *)
Lemma span_length s : length (fst (span_digits s)) <= length s.
Proof. induction s as [|c s IH]; cbn; [lia|]. destruct (is_digit c); [|cbn; lia]. destruct (span_digits s). cbn in *. lia. Qed.
Lemma span_skipn s : snd (span_digits s) = skipn (length (fst (span_digits s))) s.
Proof. induction s as [|c s IH]; [reflexivity|]. cbn. destruct (is_digit c); [|reflexivity]. destruct (span_digits s). cbn in *. exact IH. Qed.
Lemma bdigits_eq b : forall fuel i, length b - i <= fuel -> bdigits fuel b i = i + length (fst (span_digits (skipn i b))).
Proof.
  induction fuel as [|fuel IH]; intros i H; cbn [bdigits].
  - rewrite skipn_all2 by lia. cbn. lia.
  - unfold bat. destruct (nth_error b i) as [x|] eqn:E.
    + rewrite (nth_split_at _ _ _ E). cbn [span_digits]. destruct (is_digit x); [|cbn; lia].
      pose proof (nth_lt _ _ _ E). rewrite IH by lia. replace (i + 1) with (S i) by lia. destruct (span_digits (skipn (S i) b)). cbn. lia.
    + apply nth_error_None in E. rewrite skipn_all2 by lia. cbn. lia.
Qed.
Lemma bdigits_skipn b i : skipn (bdigits (length b) b i) b = snd (span_digits (skipn i b)).
Proof. rewrite bdigits_eq by lia. rewrite span_skipn. rewrite Nat.add_comm. now rewrite skipn_skipn. Qed.
Lemma bat_skipn p b i : bat p b i = match skipn i b with x :: _ => p x | [] => false end.
Proof.
  unfold bat. destruct (nth_error b i) as [x|] eqn:E; [now rewrite (nth_split_at _ _ _ E)|].
  apply nth_error_None in E. now rewrite skipn_all2.
Qed.
Lemma skipn_tl {A} i (b : list A) x r : skipn i b = x :: r -> skipn (i + 1) b = r.
Proof. intros H. rewrite Nat.add_comm, <- skipn_skipn, H. reflexivity. Qed.
Lemma bfrac_eq b i : option_map (fun j => skipn j b) (bfrac b i) = num_frac (skipn i b).
Proof.
  unfold bfrac, num_frac. rewrite bat_skipn. destruct (skipn i b) as [|x r] eqn:E; [cbn; now rewrite E|].
  rewrite (N.eqb_sym cDOT x). destruct (x =? cDOT)%N; [|cbn; now rewrite E].
  pose proof (bdigits_skipn b (i + 1)) as S. pose proof (bdigits_eq b (length b) (i + 1) ltac:(lia)) as L.
  rewrite (skipn_tl _ _ _ _ E) in S, L. destruct (span_digits r) as [ds r'] eqn:D. cbn [fst snd] in *.
  rewrite L. destruct ds as [|d ds]; cbn [length].
  - replace (i + 1 + 0 - (i + 1) =? 0) with true by lia. reflexivity.
  - replace (i + 1 + Datatypes.S (length ds) - (i + 1) =? 0) with false by lia. cbn [is_empty option_map]. f_equal. rewrite <- S, L. reflexivity.
Qed.
Lemma bexp_eq b i : option_map (fun j => skipn j b) (bexp b i) = num_exp (skipn i b).
Proof.
  unfold bexp, num_exp. rewrite bat_skipn. destruct (skipn i b) as [|x r] eqn:E; [cbn; now rewrite E|].
  destruct ((x =? cLE)%N || (x =? cUE)%N); [|cbn; now rewrite E]. cbv zeta.
  rewrite bat_skipn. pose proof (skipn_tl _ _ _ _ E) as E1. rewrite E1.
  set (k := if match r with x0 :: _ => (x0 =? cPLUS)%N || (x0 =? cMINUS)%N | [] => false end then i + 1 + 1 else i + 1).
  set (r2 := match r with x0 :: r' => if (x0 =? cPLUS)%N || (x0 =? cMINUS)%N then r' else r | [] => [] end).
  assert (K : skipn k b = r2).
  { unfold k, r2. destruct r as [|y r]; [exact E1|]. destruct ((y =? cPLUS)%N || (y =? cMINUS)%N); [|exact E1]. now apply (skipn_tl _ _ y). }
  pose proof (bdigits_skipn b k) as S. pose proof (bdigits_eq b (length b) k ltac:(lia)) as L. rewrite K in S, L.
  destruct (span_digits r2) as [ds r'] eqn:D. cbn [fst snd] in *. rewrite L. destruct ds as [|d ds]; cbn [length].
  - replace (k + 0 - k =? 0) with true by lia. reflexivity.
  - replace (k + Datatypes.S (length ds) - k =? 0) with false by lia. cbn [is_empty option_map]. f_equal. rewrite <- S, L. reflexivity.
Qed.
Lemma bfrac_le b i j : i <= length b -> bfrac b i = Some j -> j <= length b.
Proof.
  unfold bfrac. intros L. rewrite bat_skipn. destruct (skipn i b) as [|x r] eqn:E; [intros H; now injection H as <-|].
  assert (i < length b) by (destruct (Nat.le_gt_cases (length b) i) as [X|X]; [rewrite skipn_all2 in E by lia; discriminate|exact X]).
  destruct (cDOT =? x)%N; [|intros H1; now injection H1 as <-].
  pose proof (bdigits_eq b (length b) (i + 1) ltac:(lia)) as D. pose proof (span_length (skipn (i + 1) b)) as M. rewrite skipn_length in M.
  destruct (_ =? 0); [discriminate|]. intros H1. injection H1 as <-. lia.
Qed.
Lemma bexp_le b i j : i <= length b -> bexp b i = Some j -> j <= length b.
Proof.
  unfold bexp. intros L. rewrite bat_skipn. destruct (skipn i b) as [|x r] eqn:E; [intros H; now injection H as <-|].
  assert (i < length b) by (destruct (Nat.le_gt_cases (length b) i) as [X|X]; [rewrite skipn_all2 in E by lia; discriminate|exact X]).
  destruct (_ || _)%bool; [|intros H1; now injection H1 as <-]. cbv zeta. set (k := if bat _ b (i + 1) then i + 1 + 1 else i + 1).
  assert (k <= length b).
  { unfold k. rewrite bat_skipn. destruct (skipn (i + 1) b) as [|y t] eqn:F; [lia|]. destruct (_ || _)%bool; [|lia].
    destruct (Nat.le_gt_cases (length b) (i + 1)) as [X|X]; [rewrite skipn_all2 in F by lia; discriminate|lia]. }
  pose proof (bdigits_eq b (length b) k ltac:(lia)) as D. pose proof (span_length (skipn k b)) as M. rewrite skipn_length in M.
  destruct (_ =? 0); [discriminate|]. intros H1. injection H1 as <-. lia.
Qed.
Lemma btail_eq b i : i <= length b -> btail b i = num_tail (skipn i b).
Proof.
  intros L. unfold btail, num_tail. rewrite <- bfrac_eq. destruct (bfrac b i) as [j|] eqn:E; [|reflexivity]. cbn [option_map].
  apply bfrac_le in E; [|exact L]. rewrite <- bexp_eq. destruct (bexp b j) as [k|] eqn:F; [|reflexivity]. cbn [option_map].
  apply bexp_le in F; [|exact E]. destruct (Nat.eqb_spec k (length b)) as [->|N]; [now rewrite skipn_all|].
  destruct (skipn k b) eqn:G; [|reflexivity]. pose proof (skipn_length k b) as M. rewrite G in M. cbn in M. lia.
Qed.
Lemma digit_ascii c : is_digit c = true -> (c < 128)%N.
Proof. unfold is_digit. lia. Qed.
Lemma span_utf8 s : span_digits (utf8 s) = (fst (span_digits s), utf8 (snd (span_digits s))).
Proof.
  induction s as [|c s IH]; [reflexivity|]. rewrite utf8_cons. destruct (utf8_cases c) as (h & t & E & C & Ht & K). rewrite E. cbn [app span_digits].
  destruct K as [(L & -> & ->)|(L & M)].
  - cbn [app]. destruct (is_digit c); [|cbn; now rewrite E]. rewrite IH. now destruct (span_digits s).
  - replace (is_digit h) with false by (unfold is_digit; lia). replace (is_digit c) with false by (unfold is_digit; lia).
    cbn [fst snd]. now rewrite utf8_cons, E.
Qed.
(** The first byte of a text compared with an ASCII character. *)
Lemma head_ascii {A} (p : N -> bool) (f : bytes -> A) (d : A) s :
  (forall x, p x = true -> (x < 128)%N) ->
  match utf8 s with x :: r => if p x then f r else d | [] => d end =
  match s with x :: r => if p x then f (utf8 r) else d | [] => d end.
Proof.
  intros H. destruct s as [|c s]; [reflexivity|]. rewrite utf8_cons. destruct (utf8_cases c) as (h & t & E & C & Ht & K). rewrite E. cbn [app].
  destruct K as [(L & -> & ->)|(L & M)]; [reflexivity|].
  destruct (p h) eqn:P; [apply H in P; lia|]. destruct (p c) eqn:Q; [apply H in Q; lia|]. reflexivity.
Qed.
Lemma num_frac_utf8 s : num_frac (utf8 s) = option_map utf8 (num_frac s).
Proof.
  unfold num_frac.
  pose proof (head_ascii (fun c => c =? cDOT)%N (fun r => let '(ds, r') := span_digits r in if is_empty ds then None else Some r') (Some (utf8 s)) s) as H.
  specialize (H ltac:(intros ? X; cbv beta in X; lia)). cbv beta in H.
  destruct s as [|c s]; [reflexivity|]. destruct (utf8 (c :: s)) as [|x r] eqn:E; [apply utf8_nil in E; discriminate|].
  etransitivity; [exact H|]. destruct (c =? cDOT)%N; [|cbn [option_map]; now rewrite E].
  rewrite span_utf8. destruct (span_digits s) as [ds r']. cbn. now destruct ds.
Qed.
Lemma sign_utf8 s : match utf8 s with x :: r' => if (x =? cPLUS)%N || (x =? cMINUS)%N then r' else utf8 s | [] => [] end =
                    utf8 (match s with x :: r' => if (x =? cPLUS)%N || (x =? cMINUS)%N then r' else s | [] => [] end).
Proof.
  pose proof (head_ascii (fun x => (x =? cPLUS)%N || (x =? cMINUS)%N)%bool (fun r => r) (utf8 s) s ltac:(intros ? X; cbv beta in X; lia)) as H.
  destruct s as [|c s]; [reflexivity|]. destruct (utf8 (c :: s)) as [|x r] eqn:E; [apply utf8_nil in E; discriminate|].
  etransitivity; [exact H|]. destruct ((c =? cPLUS)%N || (c =? cMINUS)%N); [reflexivity|]. now rewrite E.
Qed.
Lemma num_exp_utf8 s : num_exp (utf8 s) = option_map utf8 (num_exp s).
Proof.
  unfold num_exp.
  pose proof (head_ascii (fun c => (c =? cLE)%N || (c =? cUE)%N)%bool
    (fun r => let r := match r with x :: r' => if (x =? cPLUS)%N || (x =? cMINUS)%N then r' else r | [] => [] end in
              let '(ds, r') := span_digits r in if is_empty ds then None else Some r') (Some (utf8 s)) s ltac:(intros ? X; cbv beta in X; lia)) as H.
  destruct s as [|c s]; [reflexivity|]. destruct (utf8 (c :: s)) as [|x r] eqn:E; [apply utf8_nil in E; discriminate|].
  cbv beta in H. etransitivity; [exact H|]. destruct ((c =? cLE)%N || (c =? cUE)%N); [|cbn [option_map]; now rewrite E].
  cbv zeta. rewrite sign_utf8, span_utf8. destruct (span_digits _) as [ds r']. cbn. now destruct ds.
Qed.
Lemma num_tail_utf8 s : num_tail (utf8 s) = num_tail s.
Proof.
  unfold num_tail. rewrite num_frac_utf8. destruct (num_frac s) as [r|]; [|reflexivity]. cbn [option_map].
  rewrite num_exp_utf8. destruct (num_exp r) as [r'|]; [|reflexivity]. cbn [option_map]. apply is_empty_utf8.
Qed.

Lemma numeric_like_utf8 s : scalars s -> bis_numeric_like (utf8 s) = Ok (is_numeric_like s).
Proof.
  intros Hs. unfold bis_numeric_like, is_numeric_like. cbv zeta. rewrite btrim_utf8 by exact Hs. rewrite is_empty_utf8.
  destruct (trim s) as [|c r] eqn:Et; [reflexivity|]. cbn [is_empty].
  set (b := utf8 (c :: r)).
  assert (Hb : exists h t, b = h :: t /\ (h =? cMINUS)%N = (c =? cMINUS)%N /\ ((c =? cMINUS)%N = true -> t = utf8 r)).
  { unfold b. rewrite utf8_cons. destruct (utf8_cases c) as (h & t & E & C & Ht & K). rewrite E. exists h, (t ++ utf8 r). split; [reflexivity|].
    destruct K as [(L & -> & ->)|(L & M)]; [auto|]. split; [lia|]. intros X. lia. }
  destruct Hb as (h & t & Eb & Em & Er).
  assert (G0 : bget b 0 = Ok h) by (unfold bget; now rewrite Eb). rewrite G0. cbn [bind]. rewrite Em.
  set (body := if (c =? cMINUS)%N then r else c :: r).
  set (k := if (c =? cMINUS)%N then 1 else 0).
  assert (K : skipn k b = utf8 body).
  { unfold k, body. destruct (c =? cMINUS)%N eqn:M; [rewrite Eb; cbn; now apply Er|reflexivity]. }
  assert (Hk : k <= length b) by (unfold k; rewrite Eb; cbn; destruct (c =? cMINUS)%N; lia).
  pose proof (bdigits_eq b (length b) k ltac:(lia)) as D. rewrite K, span_utf8 in D. cbn [fst] in D.
  pose proof (bdigits_skipn b k) as S. rewrite K, span_utf8 in S. cbn [snd] in S.
  pose proof (span_length (utf8 body)) as SL. rewrite span_utf8 in SL. cbn [fst] in SL. rewrite <- K, skipn_length in SL.
  assert (K1 : (c =? cMINUS)%N = true -> k = 1) by (unfold k; now intros ->). clearbody k b.
  destruct (span_digits body) as [ds rest] eqn:Sp. cbn [fst snd] in *.
  destruct ((c =? cMINUS)%N && (length b <=? 1)) eqn:B.
  { apply andb_prop in B as [B1 B2]. specialize (K1 B1). apply Nat.leb_le in B2.
    destruct ds; [reflexivity|cbn in SL; lia]. }
  rewrite D. replace (k + length ds - k) with (length ds) by lia.
  destruct ds as [|d ds]; [reflexivity|]. cbn [length]. replace (Datatypes.S (length ds) =? 0) with false by lia.
  assert (G : bget b k = Ok d).
  { unfold bget. assert (X : nth_error b k = nth_error (skipn k b) 0) by (rewrite nth_error_skipn; f_equal; lia).
    rewrite X, K. pose proof (span_utf8 body) as Y. rewrite Sp in Y. cbn [fst snd] in Y.
    destruct (utf8 body) as [|x z]; [discriminate|]. cbn in Y. destruct (is_digit x); [|discriminate]. destruct (span_digits z). injection Y as -> _ _. reflexivity. }
  assert (T : btail b (k + Datatypes.S (length ds)) = num_tail rest).
  { rewrite btail_eq by (cbn in SL; lia). cbn [length] in D. rewrite <- D, S. apply num_tail_utf8. }
  destruct ds as [|d' ds]; cbn [length is_empty negb andb].
  - replace (1 <? 1) with false by lia. cbn [bind]. now rewrite <- T.
  - replace (1 <? Datatypes.S (Datatypes.S (length ds))) with true by lia. rewrite G. cbn [bind].
    destruct (d =? cZERO)%N; [reflexivity|]. now rewrite <- T.
Qed.
Lemma numeric_literal_utf8 s : scalars s -> bis_numeric_literal (utf8 s) = Ok (is_numeric_literal s).
Proof.
  intros Hs. unfold bis_numeric_literal, is_numeric_literal. cbv zeta. rewrite btrim_utf8 by exact Hs. rewrite is_empty_utf8.
  pose proof (scalars_trim _ Hs) as Hsc. destruct (trim s) as [|c r] eqn:Et; [reflexivity|]. cbn [is_empty].
  rewrite chars_utf8 by exact Hsc. set (b := utf8 (c :: r)).
  assert (Hb : exists h t, b = h :: t /\ (h =? cMINUS)%N = (c =? cMINUS)%N /\ ((c =? cMINUS)%N = true -> t = utf8 r)).
  { unfold b. rewrite utf8_cons. destruct (utf8_cases c) as (h & t & E & C & Ht & K). rewrite E. exists h, (t ++ utf8 r). split; [reflexivity|].
    destruct K as [(L & -> & ->)|(L & M)]; [auto|]. split; [lia|]. intros X. lia. }
  destruct Hb as (h & t & Eb & Em & Er).
  assert (G0 : bget b 0 = Ok h) by (unfold bget; now rewrite Eb). rewrite G0. cbn [bind]. rewrite Em.
  set (body := if (c =? cMINUS)%N then r else c :: r).
  set (k := if (c =? cMINUS)%N then 1 else 0).
  assert (K : skipn k b = utf8 body).
  { unfold k, body. destruct (c =? cMINUS)%N eqn:M; [rewrite Eb; cbn; now apply Er|reflexivity]. }
  destruct ((c =? cMINUS)%N && (length b <=? 1)) eqn:B.
  { apply andb_prop in B as [B1 B2]. unfold body, k in *. rewrite B1 in *. apply Nat.leb_le in B2.
    pose proof (skipn_length 1 b) as SL. rewrite K in SL. clearbody b. destruct r as [|y r]; [reflexivity|].
    destruct (utf8 (y :: r)) eqn:U; [apply utf8_nil in U; discriminate|cbn in SL; lia]. }
  assert (Hn : body <> []).
  { unfold body, k in *. destruct (c =? cMINUS)%N; [|discriminate]. cbn [andb] in B. intros ->. change (utf8 []) with (@nil N) in K. clearbody b.
    pose proof (skipn_length 1 b) as SL. rewrite K in SL. cbn in SL. apply Nat.leb_gt in B. lia. }
  destruct body as [|d bd]; [congruence|]. clear Hn.
  assert (G : exists x z, bget b k = Ok x /\ skipn k b = x :: z /\ (x =? cZERO)%N = (d =? cZERO)%N /\ is_digit x = is_digit d /\ ((d < 128)%N -> z = utf8 bd)).
  { unfold bget. rewrite utf8_cons in K. destruct (utf8_cases d) as (x & z & E & C & Ht & Kd). rewrite E in K. cbn [app] in K.
    exists x, (z ++ utf8 bd). assert (X : nth_error b k = nth_error (skipn k b) 0) by (rewrite nth_error_skipn; f_equal; lia).
    rewrite X, K. cbn. split; [reflexivity|]. split; [reflexivity|]. unfold is_digit. destruct Kd as [(L & -> & ->)|(L & M)]; [auto|].
    split; [lia|]. split; [lia|]. lia. }
  destruct G as (x & z & -> & Kx & Ez & Ed & Et'). cbn [bind]. rewrite Ez, Ed.
  assert (Hk : k < length b).
  { destruct (Nat.le_gt_cases (length b) k) as [X|X]; [rewrite skipn_all2 in Kx by lia; discriminate|exact X]. }
  destruct (N.eqb_spec d cZERO) as [->|N].
  - specialize (Et' ltac:(lia)). pose proof (skipn_tl _ _ _ _ Kx) as K1. rewrite Et' in K1. rewrite bat_skipn, K1.
    pose proof (head_ascii is_digit (fun _ => @None nat) (Some (k + 1)) bd digit_ascii) as H1.
    assert (H2 : (if match utf8 bd with x0 :: _ => is_digit x0 | [] => false end then None else Some (k + 1)) =
                 match utf8 bd with x0 :: _ => if is_digit x0 then None else Some (k + 1) | [] => Some (k + 1) end).
    { now destruct (utf8 bd). }
    rewrite H2, H1. destruct bd as [|y bd].
    + rewrite btail_eq by lia. rewrite K1. cbn [utf8 flat_map]. reflexivity.
    + destruct (is_digit y); [reflexivity|]. rewrite btail_eq by lia. now rewrite K1, num_tail_utf8.
  - destruct (is_digit d) eqn:Dd; [|reflexivity].
    pose proof (bdigits_skipn b k) as S. rewrite K, span_utf8 in S. cbn [snd] in S.
    rewrite btail_eq; [|rewrite bdigits_eq by lia; pose proof (span_length (skipn k b)) as SL; rewrite skipn_length in SL; lia].
    now rewrite S, num_tail_utf8.
Qed.

(** * The parser *)
Lemma usub_le a b : b <= a -> usub a b = Ok (a - b).
Proof. intros H. unfold usub. now destruct (Nat.leb_spec b a); [|lia]. Qed.
Lemma bunescape_utf8 s : scalars s -> bunescape (utf8 s) = on_ok utf8 (unescape_string s).
Proof. intros H. unfold bunescape. now rewrite chars_utf8. Qed.
Lemma off_1 s k c : nth_error s k = Some c -> (c < 128)%N -> off s k + 1 = off s (k + 1).
Proof. intros H L. replace (k + 1) with (S k) by lia. symmetry. now apply (off_S_ascii _ _ c). Qed.
Lemma starts_nth c s : starts_with c s = true -> nth_error s 0 = Some c.
Proof. destruct s as [|x s]; [discriminate|]. cbn. intros H. apply N.eqb_eq in H as ->. reflexivity. Qed.

Lemma closing_0 s : bfind_closing_quote (utf8 s) 0 = Ok (option_map (off s) (find_closing_quote s 0)).
Proof. exact (closing_utf8 s 0). Qed.
Lemma off_inj s i j : i < length s -> j < length s -> (off s i =? off s j) = (i =? j).
Proof.
  intros Hi Hj. destruct (Nat.eqb_spec i j) as [->|N]; [apply Nat.eqb_refl|]. apply Nat.eqb_neq.
  destruct (Nat.lt_total i j) as [H|[H|H]]; [|lia|]; [pose proof (off_lt s i j H Hi)|pose proof (off_lt s j i H Hj)]; lia.
Qed.
Lemma string_literal_utf8 s : scalars s -> bparse_string_literal (utf8 s) = on_ok utf8 (parse_string_literal s).
Proof.
  intros H. unfold bparse_string_literal, parse_string_literal. cbv zeta. rewrite btrim_utf8 by exact H.
  pose proof (scalars_trim _ H) as Ht. set (t := trim s) in *. clearbody t. rewrite bstarts_utf8 by lia.
  destruct (starts_with cDQ t) eqn:S0; [|reflexivity]. apply starts_nth in S0.
  rewrite closing_0. cbn [bind]. destruct (find_closing_quote t 0) as [k|] eqn:E; [|reflexivity]. cbn [option_map].
  apply closing_nth in E as [L N]. pose proof (nth_lt _ _ _ N) as Lk.
  assert (P : 1 <= length (utf8 t)).
  { pose proof (off_lt t 0 (length t) ltac:(lia) ltac:(lia)) as O. rewrite (off_all t (length t)) in O by lia. rewrite off_0 in O. lia. }
  rewrite usub_le by exact P. cbn [bind].
  assert (Q : (off t k =? length (utf8 t) - 1) = (k =? length t - 1)).
  { destruct (Nat.eqb_spec k (length t - 1)) as [->|Ne].
    - apply Nat.eqb_eq. pose proof (off_S_ascii _ _ _ N ltac:(lia)) as O. rewrite off_all in O by lia. lia.
    - apply Nat.eqb_neq. pose proof (off_S_ascii _ _ _ N ltac:(lia)) as O. pose proof (off_lt t (S k) (length t) ltac:(lia) ltac:(lia)) as O2.
      rewrite (off_all t (length t)) in O2 by lia. lia. }
  rewrite Q. destruct (k =? length t - 1); [|reflexivity]. cbn [negb].
  pose proof (off_1 t 0 _ S0 ltac:(lia)) as O1. rewrite off_0 in O1. cbn [Nat.add] in O1.
  replace (bslice (utf8 t) 1 (off t k)) with (bslice (utf8 t) (off t 1) (off t k)) by (now rewrite <- O1).
  rewrite bslice_off by lia. cbn [bind]. apply bunescape_utf8. now apply scalars_slice.
Qed.

Lemma str_eqb_utf8 s l : Forall (fun c => (c < 128)%N) l -> str_eqb (utf8 s) l = str_eqb s l.
Proof.
  intros H. revert s. induction H as [|x l Hx Hl IH]; intros s; destruct s as [|c s]; try reflexivity.
  - rewrite utf8_cons. destruct (utf8_cases c) as (h & t & -> & _). reflexivity.
  - rewrite utf8_cons. destruct (utf8_cases c) as (h & t & E & C & Ht & K). rewrite E. cbn [app str_eqb].
    destruct K as [(L & -> & ->)|(L & M)]; [cbn [app]; now rewrite IH|].
    replace (h =? x)%N with false by lia. replace (c =? x)%N with false by lia. reflexivity.
Qed.
Lemma literal_utf8 s : is_boolean_or_null_literal (utf8 s) = is_boolean_or_null_literal s.
Proof. unfold is_boolean_or_null_literal. rewrite !str_eqb_utf8; [reflexivity| | |]; cbn; repeat constructor. Qed.
Lemma primitive_token_utf8 s : scalars s -> bparse_primitive_token (utf8 s) = on_ok bprim_of (parse_primitive_token s).
Proof.
  intros H. unfold bparse_primitive_token, parse_primitive_token. cbv zeta. rewrite btrim_utf8 by exact H.
  pose proof (scalars_trim _ H) as Ht. set (t := trim s) in *. clearbody t. rewrite is_empty_utf8.
  destruct (is_empty t); [reflexivity|]. rewrite bstarts_utf8 by lia. destruct (starts_with cDQ t).
  - rewrite string_literal_utf8 by exact Ht. now destruct (parse_string_literal t).
  - rewrite literal_utf8. destruct (is_boolean_or_null_literal t).
    + rewrite !str_eqb_utf8 by (cbn; repeat constructor). cbn [on_ok]. destruct (str_eqb t (lit "true")); [reflexivity|]. now destruct (str_eqb t (lit "false")).
    + rewrite numeric_literal_utf8 by exact Ht. cbn [bind]. rewrite chars_utf8 by exact Ht. now destruct (is_numeric_literal t).
Qed.

(** Values between delimiters are made of characters of the text. *)
Lemma scalars_app a b : scalars a -> scalars b -> scalars (a ++ b).
Proof. unfold scalars. intros. now apply Forall_app. Qed.
Lemma pdv_scalars d s : scalars s -> forall q buf vals, scalars buf -> Forall scalars vals -> Forall scalars (pdv_loop d s q buf vals).
Proof.
  remember (length s) as n eqn:Hn. revert s Hn. induction n as [n IH] using lt_wf_ind. intros s -> H q buf vals Hb Hv.
  destruct s as [|c r]; cbn [pdv_loop].
  - destruct (_ || _)%bool; [|exact Hv]. apply Forall_app. split; [exact Hv|]. constructor; [now apply scalars_trim|constructor].
  - inversion H as [|? ? Hc Hr]; subst.
    assert (I : forall q buf vals, scalars buf -> Forall scalars vals -> Forall scalars (pdv_loop d r q buf vals)).
    { intros. apply (IH (length r) ltac:(cbn; lia) r eq_refl Hr); assumption. }
    assert (Hb1 : scalars (buf ++ [c])) by (apply scalars_app; [exact Hb|now constructor]).
    destruct ((c =? cBSLASH)%N && q).
    + destruct r as [|e r']; [now apply I|]. inversion Hr; subst.
      apply (IH (length r') ltac:(cbn; lia) r' eq_refl); [assumption| |assumption].
      apply scalars_app; [exact Hb|]. constructor; [exact Hc|]. constructor; [assumption|constructor].
    + destruct (c =? cDQ)%N; [now apply I|]. destruct ((c =? d)%N && negb q); [|now apply I].
      apply I; [constructor|]. apply Forall_app. split; [exact Hv|]. constructor; [now apply scalars_trim|constructor].
Qed.
Lemma values_scalars d s : scalars s -> Forall scalars (parse_delimited_values s d).
Proof. intros H. apply pdv_scalars; [exact H|constructor|constructor]. Qed.

Lemma bracket_start_utf8 s : scalars s -> bbracket_start_of (utf8 s) = on_ok (option_map (off s)) (bracket_start_of s).
Proof.
  intros H. unfold bbracket_start_of, bracket_start_of. cbv zeta. rewrite btrim_start_utf8 by exact H.
  rewrite bstarts_utf8 by lia. destruct (starts_with cDQ (trim_start s)) eqn:S0.
  - rewrite closing_0. cbn [bind]. destruct (find_closing_quote (trim_start s) 0) as [k|] eqn:E; [|reflexivity]. cbn [option_map].
    apply closing_nth in E as [L N]. rewrite (off_1 _ _ _ N) by lia. rewrite bfrom_off. cbn [bind].
    rewrite bstarts_utf8 by lia. replace (k + 1) with (S k) by lia.
    destruct (starts_with cLBRACK (skipn (S k) (trim_start s))); [|reflexivity]. cbn [negb].
    (* what trim_start removes *)
    assert (W : exists w, s = firstn w s ++ trim_start s /\ w = length s - length (trim_start s) /\ length (trim_start s) <= length s /\ skipn w s = trim_start s).
    { clear. exists (length s - length (trim_start s)).
      assert (X : length (trim_start s) <= length s /\ skipn (length s - length (trim_start s)) s = trim_start s).
      { induction s as [|c s [IH1 IH2]]; [split; reflexivity|]. cbn [trim_start]. destruct (is_ws c).
        - cbn [length]. split; [lia|]. replace (S (length s) - length (trim_start s)) with (S (length s - length (trim_start s))) by lia. exact IH2.
        - split; [lia|]. now rewrite Nat.sub_diag. }
      destruct X as [X1 X2]. split; [|auto]. transitivity (firstn (length s - length (trim_start s)) s ++ skipn (length s - length (trim_start s)) s); [symmetry; apply firstn_skipn|now rewrite X2]. }
    destruct W as (w & _ & Ew & Lw & Sw). rewrite <- Ew.
    assert (O : length (utf8 s) = off s w + length (utf8 (trim_start s))) by (rewrite (off_split s w); now rewrite Sw).
    rewrite usub_le by lia. cbn [bind]. replace (length (utf8 s) - length (utf8 (trim_start s))) with (off s w) by lia.
    assert (K : off s w + off (trim_start s) k + 1 = off s (w + k + 1)).
    { pose proof (off_add s w (k + 1)) as A. rewrite Sw in A. rewrite <- (off_1 _ _ _ N) in A by lia. replace (w + k + 1) with (w + (k + 1)) by lia. lia. }
    rewrite K. rewrite bfind_from_off by lia. reflexivity.
  - rewrite bfind_utf8 by lia. reflexivity.
Qed.

Lemma header_colon_utf8 s be : nth_error s be = Some cRBRACK ->
  bheader_colon (utf8 s) (off s be) = Ok (option_map (off s) (find_from cLBRACE (S be) s), option_map (off s) (header_colon s be)).
Proof.
  intros N. unfold bheader_colon, header_colon. cbv zeta. rewrite (off_1 _ _ _ N) by lia. replace (be + 1) with (S be) by lia.
  rewrite !bfind_from_off by lia. cbn [bind].
  destruct (find_from cLBRACE (S be) s) as [bs|] eqn:B; cbn [option_map bind]; [|rewrite bfind_from_off by lia; reflexivity].
  destruct (find_from cCOLON (S be) s) as [co|] eqn:C; cbn [option_map bind]; [|rewrite bfind_from_off by lia; reflexivity].
  apply find_from_nth in B as [B _]. apply find_from_nth in C as [C _].
  rewrite off_ltb by (eapply nth_lt; eassumption). destruct (bs <? co); cbn [bind]; [|rewrite bfind_from_off by lia; reflexivity].
  rewrite bfind_from_off by lia. cbn [bind]. destruct (find_from cRBRACE bs s) as [fe|] eqn:F; cbn [option_map]; [|rewrite bfind_from_off by lia; reflexivity].
  apply find_from_nth in F as [F _]. rewrite (off_1 _ _ _ F) by lia. rewrite bfind_from_off by lia.
  now replace (fe + 1) with (S fe) by lia.
Qed.
Lemma header_key_utf8 s bs : scalars s -> bs < length s ->
  bheader_key (utf8 s) (off s bs) = on_ok (fun p => (option_map utf8 (fst p), snd p)) (header_key s bs).
Proof.
  intros H L. unfold bheader_key, header_key.
  assert (P : (0 <? off s bs) = (0 <? bs)) by (rewrite <- (off_0 s) at 1; apply off_ltb; lia).
  rewrite P. destruct (0 <? bs); [|reflexivity]. rewrite bto_off. cbn [bind]. cbv zeta.
  pose proof (scalars_firstn bs s H) as Hf. rewrite btrim_utf8 by exact Hf. pose proof (scalars_trim _ Hf) as Ht.
  rewrite bstarts_utf8 by lia. destruct (starts_with cDQ (trim (firstn bs s))).
  - rewrite string_literal_utf8 by exact Ht. now destruct (parse_string_literal _).
  - rewrite is_empty_utf8. now destruct (is_empty (trim (firstn bs s))).
Qed.
Lemma fields_utf8 l : Forall scalars l ->
  map_result (fun field => let trimmed := btrim field in
                           let? name := bparse_string_literal trimmed in
                           Ok (BField name (bstarts cDQ trimmed))) (map utf8 l) =
  on_ok (map bfield_of) (map_result (fun field => let trimmed := trim field in
                                                  let? name := parse_string_literal trimmed in
                                                  Ok (Field name (starts_with cDQ trimmed))) l).
Proof.
  induction 1 as [|x l Hx Hl IH]; [reflexivity|]. cbn [map map_result]. cbv zeta in *. rewrite btrim_utf8 by exact Hx.
  rewrite string_literal_utf8 by now apply scalars_trim. rewrite bstarts_utf8 by lia.
  destruct (parse_string_literal (trim x)) as [name|e]; [|reflexivity]. cbn [on_ok bind]. rewrite IH.
  now destruct (map_result _ l).
Qed.
Lemma header_fields_utf8 s be ci d : scalars s -> ci < length s ->
  bheader_fields (utf8 s) (option_map (off s) (find_from cLBRACE (S be) s)) (off s ci) d =
  on_ok (option_map (map bfield_of)) (header_fields s be ci d).
Proof.
  intros H L. unfold bheader_fields, header_fields. destruct (find_from cLBRACE (S be) s) as [bs|] eqn:B; [|reflexivity].
  cbn [option_map]. apply find_from_nth in B as [B _]. rewrite off_ltb by (eauto using nth_lt).
  destruct (bs <? ci); [|reflexivity]. rewrite bfind_from_off by lia. cbn [bind].
  destruct (find_from cRBRACE bs s) as [fe|] eqn:F; [|reflexivity]. cbn [option_map]. apply find_from_nth in F as [F Lf].
  rewrite off_ltb by (eauto using nth_lt). destruct (fe <? ci); [|reflexivity].
  rewrite (off_1 _ _ _ B) by lia. replace (bs + 1) with (S bs) by lia.
  assert (S bs <= fe).
  { destruct (Nat.eq_dec bs fe) as [->|]; [|lia]. rewrite B in F. discriminate. }
  rewrite bslice_off by assumption. cbn [bind]. unfold bparse_delimited_values, parse_fields.
  assert (Hc : scalars (slice (S bs) fe s)) by now apply scalars_slice. rewrite chars_utf8 by exact Hc.
  rewrite fields_utf8 by now apply values_scalars. now destruct (map_result _ _).
Qed.
Theorem header_line_utf8 s d : scalars s ->
  bparse_array_header_line (utf8 s) d =
  on_ok (option_map (fun p => (bheader_of (fst p), option_map utf8 (snd p)))) (parse_array_header_line s d).
Proof.
  intros H. unfold bparse_array_header_line, parse_array_header_line. rewrite bracket_start_utf8 by exact H.
  destruct (bracket_start_of s) as [[bs|]|e] eqn:B; try reflexivity. cbn [on_ok bind option_map].
  assert (Nb : nth_error s bs = Some cLBRACK).
  { unfold bracket_start_of in B. cbv zeta in B. destruct (starts_with cDQ (trim_start s)).
    - destruct (find_closing_quote _ 0) as [k|]; [|discriminate]. destruct (negb _); [discriminate|]. injection B as B. now apply find_from_nth in B as [B _].
    - injection B as B. now apply find_char_nth. }
  rewrite bfind_from_off by lia. cbn [bind]. destruct (find_from cRBRACK bs s) as [be|] eqn:E; [|reflexivity]. cbn [option_map].
  apply find_from_nth in E as [Ne Le]. rewrite header_colon_utf8 by exact Ne. cbn [bind].
  destruct (header_colon s be) as [ci|] eqn:C; [|reflexivity]. cbn [option_map].
  assert (Nc : nth_error s ci = Some cCOLON) by (unfold header_colon in C; cbv zeta in C; now apply find_from_nth in C as [C _]).
  rewrite header_key_utf8; [|exact H|now apply nth_lt in Nb].
  destruct (header_key s bs) as [[key q]|e]; [|reflexivity]. cbn [on_ok bind fst snd].
  rewrite (off_1 _ _ _ Nc) by lia. rewrite bfrom_off. cbn [bind]. cbv zeta. replace (ci + 1) with (S ci) by lia.
  rewrite btrim_utf8 by now apply scalars_skipn. rewrite (off_1 _ _ _ Nb) by lia. replace (bs + 1) with (S bs) by lia.
  assert (S bs <= be).
  { destruct (Nat.eq_dec bs be) as [->|]; [|lia]. rewrite Nb in Ne. discriminate. }
  rewrite bslice_off by assumption. cbn [bind]. unfold bparse_bracket_segment.
  rewrite chars_utf8 by now apply scalars_slice. destruct (parse_bracket_segment _ d) as [[len dl]|]; [|reflexivity].
  destruct (MAX_DECLARED_ARRAY_LENGTH <? len)%N; [reflexivity|].
  rewrite header_fields_utf8; [|exact H|now apply nth_lt in Nc].
  destruct (header_fields s be ci dl) as [fs|e]; [|reflexivity]. cbn [on_ok bind option_map fst snd]. rewrite is_empty_utf8.
  now destruct (is_empty (trim (skipn (S ci) s))).
Qed.

Lemma colon_loop_eq b : forall fuel i, length b - i < fuel ->
  bcolon_loop fuel b i = match find_char cCOLON (skipn i b) with Some k => i + k | None => Nat.max i (length b) end.
Proof.
  induction fuel as [|fuel IH]; intros i H; [lia|]. cbn [bcolon_loop]. rewrite bat_skipn.
  destruct (skipn i b) as [|x r] eqn:E.
  - cbn. destruct (Nat.le_gt_cases (length b) i); [lia|]. pose proof (skipn_length i b) as L. rewrite E in L. cbn in L. lia.
  - pose proof (skipn_length i b) as L. rewrite E in L. cbn in L. cbn [find_char]. destruct (x =? cCOLON)%N; [cbn; lia|]. cbn [negb].
    rewrite IH by lia. rewrite (skipn_tl _ _ _ _ E). destruct (find_char cCOLON r); cbn; lia.
Qed.
Lemma missing_utf8 s k : (if length (utf8 s) <=? off s k then Ok true else let? x := bget (utf8 s) (off s k) in Ok (negb (x =? cCOLON)%N)) =
  Ok (negb (starts_with cCOLON (skipn k s))).
Proof.
  pose proof (skipn_off s k) as K. unfold bget.
  assert (X : nth_error (utf8 s) (off s k) = nth_error (skipn (off s k) (utf8 s)) 0) by (rewrite nth_error_skipn; f_equal; lia).
  rewrite X, K. rewrite (off_split s k). destruct (skipn k s) as [|c r] eqn:E.
  - cbn [utf8 flat_map length]. rewrite Nat.add_0_r, Nat.leb_refl. reflexivity.
  - pose proof (bstarts_utf8 cCOLON (c :: r) ltac:(lia)) as B. unfold bstarts, bat in B.
    destruct (utf8 (c :: r)) as [|x t] eqn:U; [apply utf8_nil in U; discriminate|]. cbn [nth_error length] in *.
    destruct (Nat.leb_spec (off s k + S (length t)) (off s k)); [lia|]. cbn [bind]. rewrite <- B. now rewrite N.eqb_sym.
Qed.
Lemma unquoted_key_utf8 s i : scalars s ->
  bparse_unquoted_key (utf8 s) (off s i) = on_ok (fun p => (utf8 (fst p), off s (snd p))) (parse_unquoted_key s i).
Proof.
  intros H. unfold bparse_unquoted_key, parse_unquoted_key. cbv zeta. rewrite colon_loop_eq by lia. rewrite skipn_off.
  fold (bfind cCOLON (utf8 (skipn i s))). rewrite bfind_utf8 by lia. unfold find_from.
  destruct (find_char cCOLON (skipn i s)) as [k|] eqn:E; cbn [option_map].
  - rewrite <- off_add. rewrite missing_utf8. cbn [bind]. apply find_char_nth in E. rewrite nth_error_skipn in E.
    rewrite (nth_split_at _ _ _ E). cbn [starts_with]. rewrite N.eqb_refl. cbn [negb].
    rewrite bslice_off by lia. cbn [bind on_ok fst snd]. rewrite btrim_utf8 by now apply scalars_slice.
    rewrite (off_1 _ _ _ E) by lia. now replace (i + k + 1) with (S (i + k)) by lia.
  - assert (M : Nat.max (off s i) (length (utf8 s)) = length (utf8 s)) by (rewrite (off_split s i); lia).
    rewrite M, Nat.leb_refl. reflexivity.
Qed.
Lemma quoted_key_utf8 s i : scalars s -> nth_error s i = Some cDQ ->
  bparse_quoted_key (utf8 s) (off s i) = on_ok (fun p => (utf8 (fst p), off s (snd p))) (parse_quoted_key s i).
Proof.
  intros H N. unfold bparse_quoted_key, parse_quoted_key. rewrite closing_utf8. cbn [bind].
  destruct (find_closing_quote s i) as [k|] eqn:E; [|reflexivity]. cbn [option_map]. apply closing_nth in E as [L Nk].
  rewrite (off_1 _ _ _ N) by lia. rewrite bslice_off by lia. cbn [bind]. rewrite bunescape_utf8 by now apply scalars_slice.
  replace (i + 1) with (S i) by lia. destruct (unescape_string (slice (S i) k s)) as [key|e]; [|reflexivity]. cbn [on_ok bind]. cbv zeta.
  rewrite (off_1 _ _ _ Nk) by lia. rewrite missing_utf8. cbn [bind]. replace (k + 1) with (S k) by lia.
  destruct (starts_with cCOLON (skipn (S k) s)) eqn:B; [|reflexivity]. cbn [negb on_ok fst snd]. f_equal. f_equal.
  apply starts_nth in B. rewrite nth_error_skipn, Nat.add_0_r in B. rewrite (off_1 _ _ _ B) by lia. f_equal. lia.
Qed.
Theorem key_token_utf8 s i : scalars s ->
  bparse_key_token (utf8 s) (off s i) = on_ok (fun p => (utf8 (fst (fst p)), off s (snd (fst p)), snd p)) (parse_key_token s i).
Proof.
  intros H. unfold bparse_key_token, parse_key_token. cbv zeta. rewrite bat_off.
  fold (bstarts cDQ (utf8 (skipn i s))). rewrite bstarts_utf8 by lia. destruct (starts_with cDQ (skipn i s)) eqn:S.
  - apply starts_nth in S. rewrite nth_error_skipn, Nat.add_0_r in S. rewrite quoted_key_utf8 by assumption.
    destruct (parse_quoted_key s i) as [[key e]|]; reflexivity.
  - rewrite unquoted_key_utf8 by assumption. destruct (parse_unquoted_key s i) as [[key e]|]; reflexivity.
Qed.
Lemma key_value_content_utf8 s : bis_key_value_content (utf8 s) = Ok (is_key_value_content s).
Proof.
  unfold bis_key_value_content, is_key_value_content. rewrite unquoted_utf8. cbn [bind]. now destruct (find_unquoted_char s cCOLON 0).
Qed.
Lemma array_header_content_utf8 s : scalars s -> bis_array_header_content (utf8 s) = Ok (is_array_header_content s).
Proof.
  intros H. unfold bis_array_header_content, is_array_header_content. rewrite btrim_start_utf8 by exact H.
  rewrite bstarts_utf8 by lia. rewrite key_value_content_utf8. now destruct (starts_with cLBRACK (trim_start s)).
Qed.

(** * The decoders and the scanner *)
Lemma key_and_rest_utf8 s : scalars s ->
  bkey_and_rest (utf8 s) =
  on_ok (fun p => (utf8 (fst (fst p)), snd p, utf8 (trim (skipn (snd (fst p)) s)))) (parse_key_token s 0).
Proof.
  intros H. unfold bkey_and_rest. pose proof (key_token_utf8 s 0 H) as K. rewrite off_0 in K. rewrite K.
  destruct (parse_key_token s 0) as [[[key e] q]|]; [|reflexivity]. cbn [on_ok bind fst snd]. rewrite bfrom_off. cbn [bind].
  now rewrite btrim_utf8 by now apply scalars_skipn.
Qed.
Lemma after_hyphen_utf8 s : bafter_hyphen (utf8 s) =
  if starts_with_str LIST_ITEM_PREFIX s then Ok (utf8 (skipn 2 s)) else Err EExpectedListItem.
Proof.
  unfold bafter_hyphen, LIST_ITEM_PREFIX. fold (bstarts cMINUS (utf8 s)). rewrite bstarts_utf8 by lia.
  destruct s as [|c s]; [reflexivity|]. cbn [starts_with starts_with_str]. rewrite (N.eqb_sym cMINUS c). destruct (N.eqb_spec c cMINUS) as [->|]; [|reflexivity].
  cbn [andb]. assert (O1 : off (cMINUS :: s) 1 = 1) by reflexivity. rewrite <- O1 at 1. rewrite bat_off. cbn [skipn].
  fold (bstarts cSPACE (utf8 s)). rewrite bstarts_utf8 by lia. destruct s as [|d s]; [reflexivity|]. cbn [starts_with starts_with_str].
  rewrite (N.eqb_sym cSPACE d). destruct (N.eqb_spec d cSPACE) as [->|]; [|reflexivity].
  change 2 with (off (cMINUS :: cSPACE :: s) 2) at 1. rewrite bfrom_off. reflexivity.
Qed.
Lemma key_value_line_utf8 s : bis_key_value_line (utf8 s) = Ok (is_key_value_line s).
Proof.
  unfold bis_key_value_line, is_key_value_line. rewrite bstarts_utf8 by lia. destruct (starts_with cDQ s).
  - rewrite closing_0. cbn [bind]. destruct (find_closing_quote s 0) as [k|] eqn:E; [|reflexivity]. cbn [option_map].
    apply closing_nth in E as [_ N]. rewrite (off_1 _ _ _ N) by lia. rewrite bfrom_off. cbn [bind].
    rewrite bcontains_utf8 by lia. now replace (k + 1) with (S k) by lia.
  - now rewrite bcontains_utf8 by lia.
Qed.
Lemma data_row_utf8 s d : bis_data_row (utf8 s) d = Ok (is_data_row s d).
Proof.
  unfold bis_data_row, is_data_row. rewrite !unquoted_utf8. cbn [bind].
  destruct (find_unquoted_char s cCOLON 0) as [c|] eqn:C; [|reflexivity].
  destruct (find_unquoted_char s d 0) as [k|] eqn:D; [|reflexivity]. cbn [option_map].
  apply unquoted_lt in C. apply unquoted_lt in D. now rewrite off_ltb.
Qed.

Lemma bcount_eq p b : forall fuel i n, length b - i <= fuel ->
  (n <= length b - i) -> Forall (fun x => p x = true) (firstn n (skipn i b)) ->
  match skipn (i + n) b with x :: _ => p x = false | [] => True end ->
  bcount p fuel b i = i + n.
Proof.
  induction fuel as [|fuel IH]; intros i n Hf Hn Ha Hs; cbn [bcount].
  - lia.
  - rewrite bat_skipn. destruct n as [|n].
    + rewrite Nat.add_0_r in *. destruct (skipn i b) as [|x r]; [reflexivity|]. now rewrite Hs.
    + destruct (skipn i b) as [|x r] eqn:E; [pose proof (skipn_length i b) as L; rewrite E in L; cbn in L; lia|].
      cbn [firstn] in Ha. inversion Ha; subst. rewrite H1. rewrite (IH (i + 1) n); [lia|lia|lia| |].
      * now rewrite (skipn_tl _ _ _ _ E).
      * now replace (i + 1 + n) with (i + S n) by lia.
Qed.
(** A run of ASCII characters at the start of a line is as long in bytes as in characters. *)
Lemma run_utf8 p (f : str -> nat) : (forall x, p x = true -> (x < 128)%N) ->
  (forall s, f s = match s with c :: r => if p c then S (f r) else 0 | [] => 0 end) ->
  forall s, bcount p (length (utf8 s)) (utf8 s) 0 = f s /\ off s (f s) = f s /\ f s <= length s.
Proof.
  intros Hp Hf s.
  assert (G : forall s, f s <= length s /\ off s (f s) = f s /\ Forall (fun x => p x = true) (utf8 (firstn (f s) s)) /\
                        match skipn (f s) s with c :: _ => p c = false | [] => True end).
  { clear s. induction s as [|c r (I1 & I2 & I3 & I4)]; rewrite Hf; [repeat split; constructor|].
    destruct (p c) eqn:P; [|cbn; rewrite P; repeat split; [lia|constructor]].
    pose proof (Hp _ P) as A. cbn [length firstn skipn]. repeat split; [lia| | |exact I4].
    - rewrite off_cons, I2, utf8_ascii by exact A. reflexivity.
    - rewrite utf8_cons, utf8_ascii by exact A. constructor; [exact P|exact I3]. }
  destruct (G s) as (I1 & I2 & I3 & I4). split; [|auto].
  rewrite (bcount_eq p (utf8 s) _ 0 (f s)); [reflexivity|lia| | |].
  - rewrite Nat.sub_0_r. rewrite (off_split s (f s)). lia.
  - replace (firstn (f s) (skipn 0 (utf8 s))) with (utf8 (firstn (f s) s)) by (rewrite <- firstn_off; cbn [skipn]; now rewrite I2). exact I3.
  - replace (skipn (0 + f s) (utf8 s)) with (utf8 (skipn (f s) s)) by (rewrite <- skipn_off; cbn [Nat.add]; now rewrite I2). destruct (skipn (f s) s) as [|c r]; [exact I|].
    rewrite utf8_cons. destruct (utf8_cases c) as (h & t & -> & C & _ & K). cbn [app]. destruct K as [(L & -> & _)|(L & M)]; [exact I4|].
    destruct (p h) eqn:P; [apply Hp in P; lia|reflexivity].
Qed.
Lemma spaces_utf8 s : bcount (N.eqb cSPACE) (length (utf8 s)) (utf8 s) 0 = count_spaces s /\ off s (count_spaces s) = count_spaces s.
Proof.
  destruct (run_utf8 (N.eqb cSPACE) count_spaces) with (s := s) as (A & B & _); [intros; lia| |auto].
  intros [|c r]; [reflexivity|]. cbn. now rewrite N.eqb_sym.
Qed.
Lemma space_tab_utf8 s : bcount (fun x => (x =? cSPACE)%N || (x =? cTAB)%N) (length (utf8 s)) (utf8 s) 0 = count_space_tab s /\ off s (count_space_tab s) = count_space_tab s.
Proof.
  destruct (run_utf8 (fun x => (x =? cSPACE)%N || (x =? cTAB)%N)%bool count_space_tab) with (s := s) as (A & B & _); [intros; lia| |auto].
  now intros [|c r].
Qed.
Theorem line_utf8 s st indent strict : scalars s ->
  bparse_line (S (ss_line st)) (utf8 s) indent strict =
  on_ok (fun p => option_map (fun l => (pl_indent l, utf8 (pl_content l), pl_depth l)) (fst p))
        (parse_line_incremental s st indent strict).
Proof.
  intros H. unfold bparse_line, parse_line_incremental. cbv zeta. destruct (spaces_utf8 s) as [-> O]. rewrite <- O at 1.
  rewrite bfrom_off. cbn [bind]. rewrite btrim_utf8 by now apply scalars_skipn. rewrite is_empty_utf8.
  destruct (is_empty (trim (skipn (count_spaces s) s))); [reflexivity|].
  destruct strict; [|reflexivity]. destruct (space_tab_utf8 s) as [-> O2]. rewrite <- O2 at 1. rewrite bto_off. cbn [bind].
  rewrite bcontains_utf8 by lia. destruct (contains cTAB _); [reflexivity|].
  destruct indent as [|i]; [destruct (0 <? count_spaces s); reflexivity|].
  destruct ((0 <? count_spaces s) && _); reflexivity.
Qed.
