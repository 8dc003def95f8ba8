(** For C69: the text of a value beside its JSON text. *)
From Verif Require Import Chars Floats Json JsonInd Lex Spec Normalize JsonEq JsonText NumProof TextProof SpecText SpecSize FoldShort.

Local Open Scope nat_scope.

Section Size.
Variable st : num_style.
Variable dl : char.
Variable depth0 : N.
(** What a character counts for. *)
Variable w : char -> nat.
Hypothesis w_ascii : forall c, (c < 128)%N -> w c = 1.
Hypothesis w_least : forall c, 1 <= w c.
Hypothesis w_most : forall c, w c <= 6.
Hypothesis dl_ascii : w dl = 1.
(** The numbers that are no longer than in JSON. *)
Variable fits : f64 -> Prop.
Hypothesis fits_ok : forall x s m e, f64_sf x = SpecFloat.S754_finite s m e -> fits x ->
  list_sum (map w (f64_to_string x)) <= list_sum (map w (unwrap_or (number_text st x) (lit "null"))).
Variable indent : nat.
Hypothesis indent_2 : 2 <= indent.

Notation weight := (weight w).
Notation size := (size w indent).
Definition js (d : nat) (v : json) : nat := weight (stringify_value_to_buf st indent d v).
Definition jkey (k : str) : nat := weight (push_json_string k).
(** An item or a member, on lines of their own. *)
Definition jitem (d : nat) (v : json) : nat := 1 + indent * d + js d v.
Definition jmember (d : nat) (kv : str * json) : nat := 1 + indent * d + jkey (fst kv) + 2 + js d (snd kv).

Lemma w_break d : weight (break indent d) = 1 + indent * d.
Proof.
  unfold break. destruct indent as [|i]; [lia|]. rewrite weight_cons, w_ascii by reflexivity. f_equal. rewrite Nat.mul_comm.
  induction (S i * d) as [|n IH]; [reflexivity|]. cbn [spaces repeat]. rewrite weight_cons, w_ascii by reflexivity. unfold spaces in IH. now rewrite IH.
Qed.
Lemma w_comma {A} (l : list A) : weight (comma_unless l) = match l with [] => 0 | _ => 1 end.
Proof. unfold comma_unless. destruct l; [reflexivity|]. cbn [is_empty]. rewrite weight_cons, w_ascii by reflexivity. reflexivity. Qed.

Lemma js_arr d l : l <> [] -> js d (JArr l) = 2 + (1 + indent * d) + (length l - 1) + list_sum (map (jitem (S d)) l).
Proof.
  intros Hl. unfold js. cbn [stringify_value_to_buf].
  match goal with |- context [?f l ++ _] => set (loop := f) end.
  assert (E : forall l, weight (loop l) = (length l - 1) + list_sum (map (jitem (S d)) l)).
  { clear l Hl. induction l as [|v l IH]; [reflexivity|]. unfold loop. fold loop. rewrite !weight_app, w_break, w_comma, IH. cbn [map length list_sum fold_right].
    fold (list_sum (map (jitem (S d)) l)). unfold jitem at 2. unfold js. destruct l; cbn [length]; lia. }
  replace (is_empty l) with false by now destruct l.
  rewrite weight_cons, !weight_app, w_break, weight_cons, !w_ascii by reflexivity. change (weight []) with 0. rewrite E. lia.
Qed.
Lemma js_obj d l : l <> [] -> js d (JObj l) = 2 + (1 + indent * d) + (length l - 1) + list_sum (map (jmember (S d)) l).
Proof.
  intros Hl. unfold js. cbn [stringify_value_to_buf].
  match goal with |- context [?f l ++ _] => set (loop := f) end.
  assert (E : forall l, weight (loop l) = (length l - 1) + list_sum (map (jmember (S d)) l)).
  { clear l Hl. induction l as [|[k v] l IH]; [reflexivity|]. unfold loop. fold loop. rewrite !weight_app, w_break, w_comma, IH.
    lazymatch goal with |- _ + (_ + (?x + _)) = _ => replace x with 2 by (destruct indent; [lia|]; cbn; rewrite !w_ascii by reflexivity; reflexivity) end.
    cbn [map length list_sum fold_right].
    fold (list_sum (map (jmember (S d)) l)). unfold jmember at 2. unfold js, jkey. cbn [fst snd]. destruct l; cbn [length]; lia. }
  replace (is_empty l) with false by now destruct l.
  rewrite weight_cons, !weight_app, w_break, weight_cons, !w_ascii by reflexivity. change (weight []) with 0. rewrite E. lia.
Qed.

(** Tokens. *)
Lemma push_le c : w c <= weight (push_char c) /\ (In c (map fst escapes) -> 2 <= weight (push_char c)).
Proof.
  unfold push_char. repeat match goal with |- context [if ?b then _ else _] => destruct b eqn:? end;
    repeat match goal with H : (_ =? _)%N = true |- _ => apply N.eqb_eq in H; subst c end;
    try (split; [rewrite !weight_cons, !w_ascii by reflexivity; cbn; lia|intros _; rewrite !weight_cons, !w_ascii by reflexivity; cbn; lia]).
  - split; [|intros _]; unfold unicode_escape, hex4; rewrite !weight_cons; pose proof (w_most c); pose proof w_least as L;
      repeat match goal with |- context [w ?x] => lazymatch x with c => fail | _ => pose proof (L x); generalize dependent (w x); intros end end; lia.
  - split; [rewrite weight_cons; cbn; lia|]. intros H. exfalso. repeat match goal with H : (_ =? _)%N = false |- _ => apply N.eqb_neq in H end.
    cbn in H. intuition congruence.
Qed.
Lemma escape_le s : weight s <= weight (flat_map push_char s).
Proof. induction s as [|c s IH]; [apply le_n|]. cbn [flat_map]. rewrite weight_cons, weight_app. pose proof (proj1 (push_le c)). lia. Qed.
Lemma escaped_le s b : escaped s b -> weight b <= weight (flat_map push_char s).
Proof.
  induction 1 as [|c s t _ _ IH|c e s t H _ IH]; [apply le_n| |]; cbn [flat_map]; rewrite !weight_cons, weight_app; destruct (push_le c) as [P1 P2]; [lia|].
  specialize (P2 (in_map fst _ _ H)). assert (w e = 1). { apply w_ascii. cbn in H. decompose [or] H; try easy; now match goal with E : _ = (c, e) |- _ => injection E as <- <- end. }
  rewrite (w_ascii cBSLASH) by reflexivity. lia.
Qed.
Lemma json_string s : weight (push_json_string s) = 2 + weight (flat_map push_char s).
Proof. unfold push_json_string. rewrite weight_cons, weight_app, weight_cons, w_ascii by reflexivity. change (weight []) with 0. lia. Qed.
Lemma quoted_le s t : quoted_text s t -> weight t <= weight (push_json_string s).
Proof.
  intros (b & E & ->). apply escaped_le in E. rewrite json_string, weight_cons, weight_app, weight_cons, w_ascii by reflexivity. change (weight []) with 0. lia.
Qed.
Lemma key_le k t : key_text k t -> weight t <= jkey k.
Proof. intros [(_ & ->)|(_ & H)]; [|now apply quoted_le]. unfold jkey. rewrite json_string. pose proof (escape_le k). lia. Qed.
Lemma token_le p t d : token f64_to_string dl p t -> numbers fits (JPrim p) -> weight t <= js d (JPrim p).
Proof.
  intros T F. unfold js. cbn [stringify_value_to_buf]. destruct T as [| | |x s E|x s m e E|x E|s _|s t _ Q]; cbn [stringify_primitive_to_buf bool_text]; try apply le_n.
  - unfold number_text. rewrite E. destruct s; cbn; rewrite !w_ascii by reflexivity; lia.
  - apply (fits_ok x s m e E). inversion F as [? F0|? F0| |]; subst; [exact F0|now edestruct F0].
  - unfold number_text. unfold f64_is_finite in E. destruct (f64_sf x); try discriminate; apply le_n.
  - rewrite json_string. pose proof (escape_le s). lia.
  - now apply quoted_le.
Qed.
Lemma separated_weight ts t : separated dl ts t -> weight t = list_sum (map weight ts) + (length ts - 1).
Proof.
  induction 1 as [|t|t u l r _ IH]; [reflexivity|cbn; lia|]. rewrite weight_app, weight_cons, IH, dl_ascii. cbn [map list_sum fold_right length]. lia.
Qed.
Lemma digits_weight s : Forall digit s -> weight s = length s.
Proof. induction 1 as [|c s H _ IH]; [reflexivity|]. rewrite weight_cons, IH, w_ascii; [reflexivity|]. unfold digit in H. lia. Qed.
Lemma decimal_weight n s : decimal n s -> weight s <= Nat.max 1 n.
Proof.
  intros D. pose proof D as ((_ & Hd) & _). rewrite digits_weight by exact Hd. apply decimal_spec in D as ->.
  apply dec_of_N_length; [lia|]. pose proof (N.pow_gt_lin_r 10 (N.of_nat (Nat.max 1 n)) ltac:(lia)). lia.
Qed.
Lemma header_weight key n fields h : header dl key n fields h ->
  weight h <= (match key with Some k => jkey k | None => 0 end) + 4 + Nat.max 1 n +
              (match fields with Some fs => 2 + list_sum (map jkey fs) + (length fs - 1) | None => 0 end).
Proof.
  intros H. destruct H as [key n fields kt nt dt ft Hk Hn Hd Hf]. rewrite weight_app, weight_cons, !weight_app, weight_cons, weight_app, weight_cons.
  rewrite !w_ascii by reflexivity. change (weight []) with 0. apply decimal_weight in Hn.
  assert (weight kt <= match key with Some k => jkey k | None => 0 end) by (destruct key; [now apply key_le|subst; apply le_n]).
  assert (weight dt <= 1) by (destruct Hd as [(_ & ->)|(_ & ->)]; [cbn; lia|rewrite weight_cons, dl_ascii; cbn; lia]).
  assert (weight ft <= match fields with Some fs => 2 + list_sum (map jkey fs) + (length fs - 1) | None => 0 end); [|lia].
  destruct fields as [fs|]; [|subst; apply le_n]. destruct Hf as (ts & b & F & S & ->). apply separated_weight in S.
  rewrite weight_cons, weight_app, weight_cons, S, !w_ascii by reflexivity. change (weight []) with 0.
  assert (length ts = length fs /\ list_sum (map weight ts) <= list_sum (map jkey fs)).
  { clear S. induction F as [|f t fs ts K _ [IH1 IH2]]; [split; apply le_n || reflexivity|]. cbn [length map list_sum fold_right]. split; [now f_equal|].
    apply key_le in K. unfold list_sum in IH2. lia. }
  lia.
Qed.
Lemma row_weight ps t d : row f64_to_string dl ps t -> Forall (fun p => numbers fits (JPrim p)) ps ->
  weight t <= list_sum (map (fun p => js d (JPrim p)) ps) + (length ps - 1).
Proof.
  intros (ts & F & S) N. apply separated_weight in S. rewrite S. clear S.
  assert (length ts = length ps /\ list_sum (map weight ts) <= list_sum (map (fun p => js d (JPrim p)) ps)); [|lia].
  induction F as [|p u ps ts T _ IH]; [split; apply le_n || reflexivity|]. inversion N; subst. destruct (IH H2) as [IH1 IH2].
  cbn [length map list_sum fold_right]. split; [now f_equal|]. apply (token_le _ _ d) in T; [|assumption]. unfold list_sum in IH2. lia.
Qed.

(** Rows of a table. *)
Lemma sum_le {A} (f g : A -> nat) l : (forall x, In x l -> f x <= g x) -> list_sum (map f l) <= list_sum (map g l).
Proof.
  induction l as [|x l IH]; [intros; apply le_n|]. intros H. cbn [map list_sum fold_right]. fold (list_sum (map f l)) (list_sum (map g l)).
  pose proof (H x (or_introl eq_refl)). specialize (IH (fun y Hy => H y (or_intror Hy))). lia.
Qed.
Lemma cells_le d fields : forall cells es, 2 <= indent * d -> NoDup fields -> Forall2 (fun f p => first_member es f (JPrim p)) fields cells ->
  list_sum (map jkey fields) + list_sum (map (fun p => js d (JPrim p)) cells) + 5 * length fields <= list_sum (map (jmember d) es).
Proof.
  induction fields as [|f fields IH]; intros cells es Hd N F; inversion F as [|? p ? ps (a & b & -> & Na) F']; subst; [apply Nat.le_0_l|].
  inversion N as [|? ? Nf N']; subst. cbn [map list_sum fold_right length].
  fold (list_sum (map jkey fields)) (list_sum (map (fun q => js d (JPrim q)) ps)).
  assert (F2 : Forall2 (fun f0 q => first_member (a ++ b) f0 (JPrim q)) fields ps).
  { clear - F' Nf. induction F' as [|g q fields ps (x & y & E & Ng) _ IH]; constructor; [|apply IH; intros H; apply Nf; now right].
    assert (G : g <> f) by (intros ->; apply Nf; now left). clear - E Ng G. revert x E Ng. induction a as [|e a IH]; intros x E Ng.
    - destruct x as [|e x]; injection E as E1 E2; [now subst|]. exists x, y. split; [exact E2|]. intros H. apply Ng. subst. now right.
    - destruct x as [|e' x]; injection E as E1 E2.
      + exists [], (a ++ b). subst. split; [reflexivity|easy].
      + subst e'. destruct (IH x E2) as (x' & y' & E & N'). { intros H. apply Ng. now right. }
        exists (e :: x'), y'. split; [cbn; now rewrite E|]. intros [H|H]; [|now apply N']. apply Ng. now left. }
  specialize (IH _ _ Hd N' F2). rewrite !map_app, !list_sum_app in *. cbn [map list_sum fold_right]. fold (list_sum (map (jmember d) b)).
  unfold jmember at 2. cbn [fst snd]. lia.
Qed.

Definition good (v : json) : Prop := distinct_keys v /\ filled v /\ numbers fits v.
Lemma good_arr l : good (JArr l) -> Forall good l /\ ~ In (JArr []) l.
Proof.
  intros (D & F & N). inversion D; inversion F; inversion N; subst. split; [|assumption]. rewrite Forall_forall in *. unfold good. auto.
Qed.
Lemma good_obj l : good (JObj l) -> NoDup (map fst l) /\ Forall (fun kv => good (snd kv)) l.
Proof.
  intros (D & F & N). inversion D; inversion F; inversion N; subst. split; [assumption|]. rewrite Forall_forall in *. unfold good. auto.
Qed.

Lemma table_row_le e d fields v cells t : e <= S d -> good v -> fields <> [] -> NoDup fields -> table_row fields v cells -> row f64_to_string dl cells t ->
  indent * e + weight t + 1 + list_sum (map jkey fields) + 5 * length fields <= jitem (S d) v.
Proof.
  intros Le G Hf N (es & -> & L & F) R. apply good_obj in G as [_ G].
  assert (Hc : Forall (fun p => numbers fits (JPrim p)) cells).
  { clear - F G. induction F as [|f p fs ps (a & b & -> & _) _ IH]; constructor; [|exact IH]. rewrite Forall_forall in G.
    now destruct (G (f, JPrim p)) as (_ & _ & H); [apply in_or_app; right; now left|]. }
  apply (row_weight _ _ (S (S d))) in R; [|exact Hc]. pose proof (cells_le (S (S d)) fields cells es ltac:(rewrite !Nat.mul_succ_r; lia) N F).
  assert (length cells = length fields) by (clear - F; induction F; cbn [length]; congruence).
  assert (es <> []) by (intros ->; destruct fields; [easy|discriminate]).
  unfold jitem. rewrite js_obj by assumption. apply (Nat.mul_le_mono_l _ _ indent) in Le. rewrite !Nat.mul_succ_r in *. lia.
Qed.

Notation member0 := (member f64_to_string dl false depth0).
Notation value_of0 := (value_of f64_to_string dl false depth0).
Notation members0 := (members f64_to_string dl false depth0).
Notation array0 := (array f64_to_string dl false depth0).
Notation items0 := (items f64_to_string dl false depth0).
Notation item0 := (item f64_to_string dl false depth0).

Lemma table_le e d l fields rows ts : e <= S d -> table l fields rows -> Forall good l -> Forall2 (row f64_to_string dl) rows ts ->
  size (map (fun t => (e, t)) ts) + list_sum (map jkey fields) + 5 * length fields <= list_sum (map (jitem (S d)) l).
Proof.
  intros Le (Hf & (first & r & -> & E) & T) G R.
  assert (N : NoDup fields) by (rewrite <- E; inversion G as [|? ? G1 _]; now apply good_obj in G1 as [? _]).
  assert (Z : forall l rows ts, Forall2 (table_row fields) l rows -> Forall good l -> Forall2 (row f64_to_string dl) rows ts ->
    size (map (fun t => (e, t)) ts) <= list_sum (map (jitem (S d)) l)).
  { clear rows ts T R G. intros l rows ts T. revert ts. induction T as [|v cells l rows Tv _ IH]; intros ts G R; inversion R as [|? t ? ts' Rt R']; subst; [apply le_n|].
    inversion G as [|? ? Gv G']; subst. specialize (IH _ G' R'). pose proof (table_row_le e d _ v cells t Le Gv Hf N Tv Rt).
    cbn [map]. rewrite size_cons. cbn [list_sum fold_right]. fold (list_sum (map (jitem (S d)) l)). unfold line_size. cbn [fst snd]. fold (weight t). lia. }
  inversion T as [|v cells l' rows' Tv T']; subst. inversion R as [|? t ? ts' Rt R']; subst. inversion G as [|? ? Gv G']; subst.
  specialize (Z _ _ _ T' G' R'). pose proof (table_row_le e d _ _ cells t Le Gv Hf N Tv Rt).
  cbn [map]. rewrite size_cons. cbn [list_sum fold_right]. fold (list_sum (map (jitem (S d)) r)). unfold line_size. cbn [fst snd]. fold (weight t). lia.
Qed.

Lemma text_le :
  (forall c sibs d kv ls, member0 c sibs d kv ls -> good (snd kv) -> size ls <= jmember (S d) kv) /\
  (forall c d k v ls, value_of0 c d k v ls -> good v -> size ls <= jmember (S d) (k, v)) /\
  (forall c sibs d l ls, members0 c sibs d l ls -> Forall (fun kv => good (snd kv)) l -> size ls <= list_sum (map (jmember (S d)) l)) /\
  (forall b key d l ls, array0 b key d l ls -> good (JArr l) ->
     match key with
     | Some k => size ls <= jmember (S d) (k, JArr l)
     | None => l <> [] -> size ls + 2 <= jitem (S d) (JArr l)
     end) /\
  (forall d l ls, items0 d l ls -> Forall good l -> ~ In (JArr []) l -> size ls <= list_sum (map (jitem (S d)) l)) /\
  (forall d v ls, item0 d v ls -> good v -> v <> JArr [] -> size ls <= jitem (S d) v).
Proof.
  assert (Z : forall A (f : A -> nat) x l, list_sum (map f (x :: l)) = f x + list_sum (map f l)) by reflexivity.
  apply text_mutind.
  - intros c sibs d k v ks z ls F. destruct (no_folds _ _ _ _ _ _ F).
  - auto.
  - intros c d k p kt t K T (_ & _ & N). apply key_le in K. apply (token_le _ _ (S d)) in T; [|exact N]. unfold size, jmember. cbn [map list_sum fold_right fst snd].
    unfold line_size. cbn [fst snd]. rewrite weight_app, !weight_cons, !w_ascii by reflexivity. rewrite !Nat.mul_succ_r. lia.
  - intros c d k l kt ls K _ IH G. apply key_le in K. apply good_obj in G as [_ G]. specialize (IH G). rewrite size_cons. unfold line_size, jmember. cbn [fst snd].
    rewrite weight_app, weight_cons, w_ascii by reflexivity. change (FoldShort.weight w []) with 0. destruct l as [|kv l].
    + cbn in IH. rewrite !Nat.mul_succ_r. lia.
    + rewrite js_obj by discriminate. rewrite !Nat.mul_succ_r. lia.
  - intros c d k l ls _ IH G. exact (IH G).
  - intros. apply le_n.
  - intros c sibs d kv l a b _ IH1 _ IH2 G. inversion G; subst. rewrite size_app, Z. specialize (IH1 H1). specialize (IH2 H2). lia.
  - intros b key d h H G. apply header_weight in H. destruct key as [k|]; [|easy]. unfold size, jmember. cbn [map list_sum fold_right fst snd].
    unfold line_size. cbn [fst snd]. replace (js (S d) (JArr [])) with 2 by (unfold js; cbn; now rewrite !w_ascii by reflexivity). rewrite !Nat.mul_succ_r. fold (weight h). lia.
  - intros b key d p ps h r H R G. apply header_weight in H. apply good_arr in G as [G _].
    apply (row_weight _ _ (S (S d))) in R.
    2:{ rewrite Forall_forall in *. intros q Hq. now destruct (G (JPrim q) (in_map JPrim _ _ Hq)) as (_ & _ & ?). }
    assert (E : list_sum (map (jitem (S (S d))) (map JPrim (p :: ps))) =
                list_sum (map (fun q => js (S (S d)) (JPrim q)) (p :: ps)) + (1 + indent * S (S d)) * length (p :: ps)).
    { clear. induction (p :: ps) as [|q l IH]; [cbn; lia|]. cbn [map list_sum fold_right length]. unfold list_sum in IH. rewrite IH. unfold jitem at 1. lia. }
    assert (J : js (S d) (JArr (map JPrim (p :: ps))) = 2 + (1 + indent * S d) + length ps + (list_sum (map (fun q => js (S (S d)) (JPrim q)) (p :: ps)) + (1 + indent * S (S d)) * length (p :: ps))).
    { rewrite js_arr by discriminate. rewrite E, map_length. cbn [length]. lia. }
    assert (B : (1 + indent * S (S d)) * length (p :: ps) >= 5 * length (p :: ps)) by (apply Nat.mul_le_mono_r; rewrite !Nat.mul_succ_r; lia).
    assert (S1 : size [(d, h ++ cSPACE :: r)] = indent * d + weight h + 1 + weight r + 1).
    { unfold size, line_size. cbn [map list_sum fold_right fst snd]. rewrite weight_app, weight_cons, w_ascii by reflexivity. lia. }
    rewrite S1. cbn [length] in *. destruct key as [k|]; [|intros _]; unfold jmember, jitem; cbn [fst snd]; rewrite J, !Nat.mul_succ_r in *; lia.
  - intros key d l fields rows h ts T H R G. apply header_weight in H. apply good_arr in G as [G _].
    pose proof (table_le (S d) (S d) l fields rows ts (le_S _ _ (le_n _)) T G R) as B. destruct T as (Hf & (first & r & -> & _) & _). rewrite size_cons. unfold line_size. cbn [fst snd]. fold (weight h).
    assert (1 <= length fields) by (destruct fields; [easy|cbn; lia]). cbn [length] in H.
    destruct key as [k|]; [|intros _]; unfold jmember, jitem; cbn [fst snd]; rewrite js_arr by discriminate; cbn [length]; rewrite !Nat.mul_succ_r in *; lia.
  - intros b key d l h ls P _ H _ IH G. apply header_weight in H. apply good_arr in G as [G1 G2]. specialize (IH G1 G2). rewrite size_cons. unfold line_size. cbn [fst snd]. fold (weight h).
    destruct l as [|v l]; [now destruct (P [])|]. cbn [length] in H.
    destruct key as [k|]; [|intros _]; unfold jmember, jitem; cbn [fst snd]; rewrite js_arr by discriminate; cbn [length]; rewrite !Nat.mul_succ_r in *; lia.
  - intros. apply le_n.
  - intros d v l a b _ IH1 _ IH2 G E. inversion G; subst. rewrite size_app, Z.
    specialize (IH1 H1 ltac:(intros ->; apply E; now left)). specialize (IH2 H2 ltac:(intros H; apply E; now right)). lia.
  - intros d p t T (_ & _ & N) _. apply (token_le _ _ (S d)) in T; [|exact N]. unfold size, jitem. cbn [map list_sum fold_right].
    unfold line_size. cbn [fst snd]. rewrite !weight_cons, !w_ascii by reflexivity. rewrite !Nat.mul_succ_r. lia.
  - intros d l t ls _ IH G E. specialize (IH G ltac:(congruence)). rewrite size_cons in *. unfold line_size in *. cbn [fst snd] in *. rewrite !weight_cons, !w_ascii by reflexivity. lia.
  - intros d _ _. unfold size, jitem, js. cbn [map list_sum fold_right stringify_value_to_buf is_empty]. unfold line_size. cbn [fst snd]. rewrite !weight_cons, !w_ascii by reflexivity.
    change (FoldShort.weight w []) with 0. rewrite !Nat.mul_succ_r. lia.
  - intros d k v l t a b _ IH1 _ IH2 G _. apply good_obj in G as [_ G]. inversion G as [|? ? G1 G2]; subst. specialize (IH1 G1). specialize (IH2 G2).
    rewrite size_cons, size_app in *. unfold line_size in *. cbn [fst snd] in *. rewrite !weight_cons, !w_ascii by reflexivity.
    unfold jitem. rewrite js_obj by discriminate. rewrite Z. rewrite !Nat.mul_succ_r in *. lia.
Qed.

(** The whole text, without a line feed at its end. *)
Lemma document_le l doc : document f64_to_string dl false depth0 (JObj l) doc -> good (JObj l) -> size doc <= js 0 (JObj l).
Proof.
  intros D G. inversion D as [| |? dk ls K M]; subst. apply good_obj in G as [_ G].
  destruct text_le as (_ & _ & H & _). specialize (H _ _ _ _ _ M G). destruct l as [|kv l]; [cbn in H; lia|]. rewrite js_obj by discriminate. lia.
Qed.
(** A table or a list of primitives alone. *)
Lemma root_le l doc : document f64_to_string dl false depth0 (JArr l) doc -> good (JArr l) -> l <> [] ->
  (exists ps, l = map JPrim ps) \/ (exists fields rows, table l fields rows) -> size doc <= js 0 (JArr l) + 1.
Proof.
  intros D G N T. inversion D as [|? ls A|]; subst. apply good_arr in G as [G _]. rewrite js_arr by exact N. inversion A; subst.
  - now destruct N.
  - apply header_weight in H.
    match goal with R : row _ _ _ _ |- _ => apply (row_weight _ _ 1) in R; [rename R into R0|] end.
    2:{ rewrite Forall_forall in *. intros q Hq. now destruct (G (JPrim q) (in_map JPrim _ _ Hq)) as (_ & _ & ?). }
    assert (E : list_sum (map (jitem 1) (map JPrim (p :: ps))) =
                list_sum (map (fun q => js 1 (JPrim q)) (p :: ps)) + (1 + indent * 1) * length (p :: ps)).
    { clear. induction (p :: ps) as [|q l IH]; [cbn; lia|]. cbn [map list_sum fold_right length]. unfold list_sum in IH. rewrite IH. unfold jitem at 1. lia. }
    assert (B : (1 + indent * 1) * length (p :: ps) >= 3 * length (p :: ps)) by (apply Nat.mul_le_mono_r; lia).
    rewrite E, map_length. unfold size, line_size. cbn [map list_sum fold_right fst snd]. rewrite weight_app, weight_cons, w_ascii by reflexivity.
    cbn [length] in *. cbn [map list_sum fold_right] in *. lia.
  - apply header_weight in H0.
    match goal with R : Forall2 (row _ _) _ _, T : table _ _ _ |- _ => pose proof (table_le 1 0 l _ _ _ (le_n _) T G R) as B; destruct T as (Hf & (first & r & -> & _) & _) end.
    rewrite size_cons. unfold line_size. cbn [fst snd]. fold (weight h). assert (1 <= length fields) by (destruct fields; [easy|cbn; lia]). cbn [length] in *. lia.
  - destruct T as [(ps & ->)|(fields & rows & T)]; [edestruct H; reflexivity|]. edestruct H0; eauto.
Qed.

(** The value as written is not longer than the value given. *)
Lemma normalize_le v : forall d, js d (normalize_json_value v) <= js d v.
Proof.
  induction v as [p|l IH|l IH] using json_ind'; intros d.
  - destruct p as [s|x|b|]; try apply le_n. cbn [normalize_json_value normalize_primitive]. unfold js. cbn [stringify_value_to_buf].
    unfold f64_is_finite, f64_is_zero. destruct (f64_sf x) as [s|s| |s m e] eqn:E; cbn [negb]; try apply le_n.
    + cbn [stringify_primitive_to_buf]. unfold number_text. rewrite E. replace (f64_sf f64_zero) with (SpecFloat.S754_zero false) by reflexivity.
      destruct s; cbn; rewrite !w_ascii by reflexivity; lia.
    + cbn [stringify_primitive_to_buf]. unfold number_text. rewrite E. apply le_n.
    + cbn [stringify_primitive_to_buf]. unfold number_text. rewrite E. apply le_n.
  - cbn [normalize_json_value]. destruct l as [|v l]; [apply le_n|]. rewrite !js_arr by discriminate. rewrite map_length, map_map.
    apply Nat.add_le_mono_l, sum_le. intros x Hx. rewrite Forall_forall in IH. specialize (IH x Hx (S d)). unfold jitem. lia.
  - cbn [normalize_json_value]. destruct l as [|v l]; [apply le_n|]. rewrite !js_obj by discriminate. rewrite map_length, map_map.
    apply Nat.add_le_mono_l, sum_le. intros x Hx. rewrite Forall_forall in IH. specialize (IH x Hx (S d)). unfold jmember. cbn [fst snd]. lia.
Qed.
Lemma normalize_good v : fits f64_zero -> good v -> good (normalize_json_value v).
Proof.
  intros Z (D & F & N). split; [exact (norm_distinct _ _ (normalize_spec v) D)|]. split.
  - clear - F. induction v as [p|l IH|l IH] using json_ind'; inversion F as [|? F1 F2|? F1]; subst; cbn [normalize_json_value]; constructor.
    + rewrite Forall_map, Forall_forall in *. auto.
    + intros H. apply in_map_iff in H as (x & E & H). destruct x as [|[|y x]|]; try discriminate. now apply F2.
    + rewrite Forall_map, Forall_forall in *. cbn [snd]. auto.
  - clear - N Z. induction v as [p|l IH|l IH] using json_ind'; inversion N as [x F1|? F1|? F1|? F1]; subst; cbn [normalize_json_value].
    + cbn [normalize_primitive]. destruct (f64_is_finite x); cbn [negb]; [destruct (f64_is_zero x)|]; constructor; easy.
    + destruct p; try (constructor; easy). now edestruct F1.
    + constructor. rewrite Forall_map, Forall_forall in *. auto.
    + constructor. rewrite Forall_map, Forall_forall in *. cbn [snd]. auto.
Qed.
Lemma normalize_table l fields rows : table l fields rows -> exists rows', table (map normalize_json_value l) fields rows'.
Proof.
  intros (Hf & (first & r & -> & E) & T). exists (map (map normalize_primitive) rows). split; [exact Hf|]. split.
  - eexists _, _. cbn [map normalize_json_value]. split; [reflexivity|]. now rewrite map_map.
  - clear E Hf. induction T as [|v cells l rows (es & -> & L & F) _ IH]; cbn [map]; constructor; [|exact IH].
    eexists. cbn [normalize_json_value]. split; [reflexivity|]. rewrite map_length. split; [exact L|].
    clear - F. induction F as [|f p fs ps (a & b & -> & N) _ IH]; cbn [map]; constructor; [|exact IH].
    eexists _, _. rewrite map_app. split; [reflexivity|]. now rewrite map_map.
Qed.
End Size.
