(** The grammar of RFC 8259, and the proof that the reader of SpecJson.v accepts exactly it. *)
From Verif Require Import Chars Floats Json SpecJson.

Local Open Scope nat_scope.

(** * The grammar *)

Definition ws (w : str) : Prop := Forall (fun c => json_ws c = true) w.

(** The characters of a string after the opening quotation mark, closing mark included. *)
Inductive gstring : str -> str -> Prop :=
| gs_end : gstring [cDQ] []
| gs_plain c b s : c <> cDQ -> c <> cBSLASH -> (32 <= c)%N -> gstring b s -> gstring (c :: b) (c :: s)
| gs_escape e x b s : simple_escape e = Some x -> gstring b s -> gstring (cBSLASH :: e :: b) (x :: s)
| gs_unicode h1 h2 h3 h4 u b s : hex_val4 h1 h2 h3 h4 = Some u -> low_surrogate u = false -> high_surrogate u = false ->
    gstring b s -> gstring (cBSLASH :: 117%N :: h1 :: h2 :: h3 :: h4 :: b) (u :: s)
| gs_pair h1 h2 h3 h4 l1 l2 l3 l4 u v b s :
    hex_val4 h1 h2 h3 h4 = Some u -> high_surrogate u = true ->
    hex_val4 l1 l2 l3 l4 = Some v -> low_surrogate v = true -> gstring b s ->
    gstring (cBSLASH :: 117%N :: h1 :: h2 :: h3 :: h4 :: cBSLASH :: 117%N :: l1 :: l2 :: l3 :: l4 :: b)
            ((65536 + (u - 55296) * 1024 + (v - 56320))%N :: s).

Inductive gvalue : str -> jtree -> Prop :=
| gv_null : gvalue (lit "null") TNull
| gv_true : gvalue (lit "true") (TBool true)
| gv_false : gvalue (lit "false") (TBool false)
| gv_num n : json_numeral n = true -> gvalue n (TNum n)
| gv_str b s : gstring b s -> gvalue (cDQ :: b) (TStr s)
| gv_arr0 w : ws w -> gvalue (cLBRACK :: w ++ [cRBRACK]) (TArr [])
| gv_arr b l : gitems b l -> gvalue (cLBRACK :: b ++ [cRBRACK]) (TArr l)
| gv_obj0 w : ws w -> gvalue (cLBRACE :: w ++ [cRBRACE]) (TObj [])
| gv_obj b l : gmembers b l -> gvalue (cLBRACE :: b ++ [cRBRACE]) (TObj l)
with gitems : str -> list jtree -> Prop :=
| gi_one w1 b w2 t : ws w1 -> gvalue b t -> ws w2 -> gitems (w1 ++ b ++ w2) [t]
| gi_more w1 b w2 t r l : ws w1 -> gvalue b t -> ws w2 -> gitems r l -> gitems (w1 ++ b ++ w2 ++ cCOMMA :: r) (t :: l)
with gmembers : str -> list (str * jtree) -> Prop :=
| gm_one w1 k s w2 w3 b w4 t : ws w1 -> gstring k s -> ws w2 -> ws w3 -> gvalue b t -> ws w4 ->
    gmembers (w1 ++ cDQ :: k ++ w2 ++ cCOLON :: w3 ++ b ++ w4) [(s, t)]
| gm_more w1 k s w2 w3 b w4 t r l : ws w1 -> gstring k s -> ws w2 -> ws w3 -> gvalue b t -> ws w4 -> gmembers r l ->
    gmembers (w1 ++ cDQ :: k ++ w2 ++ cCOLON :: w3 ++ b ++ w4 ++ cCOMMA :: r) ((s, t) :: l).
Definition json_document (s : str) (t : jtree) : Prop :=
  exists w1 b w2, s = w1 ++ b ++ w2 /\ ws w1 /\ gvalue b t /\ ws w2.

Scheme gvalue_ind' := Minimality for gvalue Sort Prop
  with gitems_ind' := Minimality for gitems Sort Prop
  with gmembers_ind' := Minimality for gmembers Sort Prop.
Combined Scheme grammar_ind from gvalue_ind', gitems_ind', gmembers_ind'.

(** * Pieces *)

Lemma skip_ws_split s : exists w, s = w ++ skip_ws s /\ ws w /\ match skip_ws s with [] => True | c :: _ => json_ws c = false end.
Proof.
  induction s as [|c s (w & E & Hw & Hh)]; [exists []; repeat split; constructor|].
  cbn [skip_ws]. destruct (json_ws c) eqn:Ec.
  - exists (c :: w). split; [cbn [app]; now rewrite <- E|]. split; [constructor; auto|exact Hh].
  - exists []. repeat split; [constructor|exact Ec].
Qed.
Lemma skip_ws_app w r : ws w -> skip_ws (w ++ r) = skip_ws r.
Proof. induction 1 as [|c w Hc _ IH]; [reflexivity|]. cbn [app skip_ws]. now rewrite Hc. Qed.
Lemma skip_ws_ws w : ws w -> skip_ws w = [].
Proof. intros H. rewrite <- (app_nil_r w), skip_ws_app by exact H. reflexivity. Qed.
Lemma skip_ws_cons c r : json_ws c = false -> skip_ws (c :: r) = c :: r.
Proof. intros H. cbn [skip_ws]. now rewrite H. Qed.
Lemma skip_ws_length s : length (skip_ws s) <= length s.
Proof. induction s as [|c s IH]; cbn [skip_ws]; [lia|]. destruct (json_ws c); cbn [length]; lia. Qed.

Lemma put_some c r s t : put c r = Some (s, t) -> exists s', s = c :: s' /\ r = Some (s', t).
Proof. destruct r as [[s' t']|]; [|discriminate]. intros H. injection H as <- <-. eauto. Qed.

Lemma read_string_sound : forall n s v r, length s <= n -> read_string s = Some (v, r) ->
  exists b, s = b ++ r /\ gstring b v /\ length r < length s.
Proof.
  induction n as [|n IH]; intros s v r Hn H.
  { destruct s; [discriminate|cbn [length] in Hn; lia]. }
  destruct s as [|c s]; [discriminate|]. cbn [read_string] in H. cbn [length] in Hn.
  destruct (N.eqb_spec c cDQ) as [->|Hq].
  { injection H as <- <-. exists [cDQ]. repeat split; [constructor|cbn; lia]. }
  destruct (N.eqb_spec c cBSLASH) as [->|Hb].
  - destruct s as [|e s]; [discriminate|]. cbn [length] in Hn. destruct (simple_escape e) as [x|] eqn:Ee.
    + apply put_some in H as (v' & -> & H). destruct (IH s v' r ltac:(lia) H) as (b & -> & Hg & Hl).
      exists (cBSLASH :: e :: b). repeat split; [now constructor|]. cbn [length]. lia.
    + destruct (N.eqb_spec e 117) as [->|]; [|discriminate].
      destruct s as [|h1 [|h2 [|h3 [|h4 s]]]]; try discriminate. cbn [length] in Hn.
      destruct (hex_val4 h1 h2 h3 h4) as [u|] eqn:Eu; [|discriminate].
      destruct (low_surrogate u) eqn:El; [discriminate|]. destruct (high_surrogate u) eqn:Eh.
      * destruct s as [|b0 [|e0 [|l1 [|l2 [|l3 [|l4 s]]]]]]; try discriminate. cbn [length] in Hn.
        destruct (N.eqb_spec b0 cBSLASH) as [->|]; [|discriminate].
        destruct (N.eqb_spec e0 117) as [->|]; [|discriminate]. cbn [andb] in H.
        destruct (hex_val4 l1 l2 l3 l4) as [w|] eqn:Ew; [|discriminate].
        destruct (low_surrogate w) eqn:Elw; [|discriminate].
        apply put_some in H as (v' & -> & H). destruct (IH s v' r ltac:(lia) H) as (b & -> & Hg & Hl).
        eexists. split; [|split; [eapply gs_pair; eauto|cbn [length]; lia]]. reflexivity.
      * apply put_some in H as (v' & -> & H). destruct (IH s v' r ltac:(lia) H) as (b & -> & Hg & Hl).
        eexists. split; [|split; [eapply gs_unicode; eauto|cbn [length]; lia]]. reflexivity.
  - destruct (N.ltb_spec c 32) as [|H32]; [discriminate|].
    apply put_some in H as (v' & -> & H). destruct (IH s v' r ltac:(lia) H) as (b & -> & Hg & Hl).
    exists (c :: b). repeat split; [now constructor|]. cbn [length]. lia.
Qed.
Lemma read_string_complete b v r : gstring b v -> read_string (b ++ r) = Some (v, r).
Proof.
  induction 1 as [|c b s Hq Hb H32 _ IH|e x b s He _ IH|h1 h2 h3 h4 u b s Hu Hl Hh _ IH|h1 h2 h3 h4 l1 l2 l3 l4 u w b s Hu Hh Hw Hl _ IH].
  - reflexivity.
  - cbn [app read_string]. destruct (N.eqb_spec c cDQ); [congruence|]. destruct (N.eqb_spec c cBSLASH); [congruence|].
    destruct (N.ltb_spec c 32); [lia|]. now rewrite IH.
  - cbn [app read_string]. change (cBSLASH =? cDQ)%N with false. change (cBSLASH =? cBSLASH)%N with true. cbv iota.
    now rewrite He, IH.
  - cbn [app read_string]. change (cBSLASH =? cDQ)%N with false. change (cBSLASH =? cBSLASH)%N with true. cbv iota.
    change (simple_escape 117) with (@None N). change (117 =? 117)%N with true. cbv iota. now rewrite Hu, Hl, Hh, IH.
  - cbn [app read_string]. change (cBSLASH =? cDQ)%N with false. change (cBSLASH =? cBSLASH)%N with true. cbv iota.
    change (simple_escape 117) with (@None N). change (117 =? 117)%N with true. cbv iota. rewrite Hu.
    assert (E : low_surrogate u = false) by (unfold low_surrogate, high_surrogate in *; lia).
    rewrite E, Hh. cbn [andb]. now rewrite Hw, Hl, IH.
Qed.

Lemma span_number_spec s n r : span_number s = (n, r) ->
  s = n ++ r /\ Forall (fun c => number_char c = true) n /\ match r with [] => True | c :: _ => number_char c = false end.
Proof.
  revert n r. induction s as [|c s IH]; intros n r H; cbn [span_number] in H.
  - injection H as <- <-. repeat split; constructor.
  - destruct (number_char c) eqn:Ec.
    + destruct (span_number s) as [a b]. injection H as <- <-. destruct (IH a b eq_refl) as (-> & Ha & Hb).
      repeat split; auto.
    + injection H as <- <-. repeat split; [constructor|exact Ec].
Qed.
Lemma span_number_ends n r : Forall (fun c => number_char c = true) n ->
  match r with [] => True | c :: _ => number_char c = false end -> span_number (n ++ r) = (n, r).
Proof.
  intros Hn Hr. induction Hn as [|c n Hc _ IH]; cbn [app].
  - destruct r as [|c r]; [reflexivity|]. cbn [span_number]. now rewrite Hr.
  - cbn [span_number]. now rewrite Hc, IH.
Qed.

Lemma digits_number_char ds : forallb is_digit ds = true -> Forall (fun c => number_char c = true) ds.
Proof. intros H. apply Forall_forall. intros c Hc. apply (proj1 (forallb_forall _ _) H) in Hc. unfold number_char. now rewrite Hc. Qed.
Lemma span_digits_forallb s a b : span_digits s = (a, b) -> s = a ++ b /\ forallb is_digit a = true.
Proof.
  revert a b. induction s as [|c s IH]; intros a b H; cbn [span_digits] in H; [injection H as <- <-; auto|].
  destruct (is_digit c) eqn:Ec; [|injection H as <- <-; auto].
  destruct (span_digits s) as [a' b']. injection H as <- <-. destruct (IH a' b' eq_refl) as [-> Ha]. cbn. now rewrite Ec.
Qed.
Lemma exp_part_chars s : exp_part s = true -> Forall (fun c => number_char c = true) s.
Proof.
  destruct s as [|c r]; [constructor|]. cbn [exp_part]. intros H. apply andb_prop in H as [Hc H]. apply andb_prop in H as [_ H].
  constructor; [unfold number_char; destruct (is_digit c); cbn [orb]; [reflexivity|];
    destruct (c =? cMINUS)%N, (c =? cPLUS)%N, (c =? cDOT)%N; cbn [orb]; auto|].
  destruct r as [|x r]; [constructor|]. destruct ((x =? cPLUS)%N || (x =? cMINUS)%N) eqn:Ex.
  - constructor; [|now apply digits_number_char]. unfold number_char. destruct (x =? cPLUS)%N, (x =? cMINUS)%N; try discriminate; now rewrite ?orb_true_r.
  - now apply digits_number_char.
Qed.
(** A numeral is not empty, starts with a digit or a minus sign and has only characters of numerals. *)
Lemma numeral_chars' n : json_numeral n = true ->
  Forall (fun c => number_char c = true) n /\ exists c r, n = c :: r /\ (is_digit c = true \/ c = cMINUS).
Proof.
  unfold json_numeral. intros H.
  assert (K : forall s, (let (ip, r) := span_digits s in
       int_part ip && match r with
       | c :: r' => if (c =? cDOT)%N then let (fp, r'') := span_digits r' in negb (is_empty fp) && exp_part r'' else exp_part r
       | [] => true end) = true ->
     Forall (fun c => number_char c = true) s /\ exists c r, s = c :: r /\ is_digit c = true).
  { clear n H. intros s H. destruct (span_digits s) as [ip r] eqn:Es. apply span_digits_forallb in Es as [-> Hip].
    apply andb_prop in H as [Hint H]. split.
    - apply Forall_app. split; [now apply digits_number_char|]. destruct r as [|c r]; [constructor|].
      destruct (N.eqb_spec c cDOT) as [->|]; [|now apply exp_part_chars].
      constructor; [reflexivity|]. destruct (span_digits r) as [fp r''] eqn:Er. apply span_digits_forallb in Er as [-> Hfp].
      apply andb_prop in H as [_ H]. apply Forall_app. split; [now apply digits_number_char|now apply exp_part_chars].
    - destruct ip as [|c ip]; [discriminate|]. cbn [forallb] in Hip. apply andb_prop in Hip as [Hc _]. cbn [app]. eauto. }
  destruct n as [|c n].
  - destruct (K [] H) as (_ & c & r & E & _). discriminate.
  - destruct (N.eqb_spec c cMINUS) as [->|].
    + destruct (K n H) as (H1 & _). split; [constructor; auto|eauto].
    + destruct (K (c :: n) H) as (H1 & c' & r & E & Hc). split; [exact H1|]. injection E as -> ->. eauto.
Qed.

(** * Soundness *)

Lemma starts_with_str_skip p : forall s, starts_with_str p s = true -> s = p ++ skipn (length p) s.
Proof.
  induction p as [|x p IH]; intros s H; [reflexivity|]. destruct s as [|y s]; [discriminate|].
  cbn [starts_with_str] in H. apply andb_prop in H as [Hx H]. apply N.eqb_eq in Hx as ->.
  cbn [app length skipn]. now rewrite <- (IH s H).
Qed.

Lemma option_map_some {A B} (f : A -> B) o y : option_map f o = Some y -> exists x, o = Some x /\ y = f x.
Proof. destruct o; [|discriminate]. intros H. injection H as <-. eauto. Qed.

Lemma ws_nil : ws [].
Proof. constructor. Qed.

Lemma skip_to s c r : skip_ws s = c :: r -> exists w, s = w ++ c :: r /\ ws w.
Proof. intros H. destruct (skip_ws_split s) as (w & E & Hw & _). rewrite H in E. eauto. Qed.
Lemma skip_to_nil s : skip_ws s = [] -> ws s.
Proof. intros H. destruct (skip_ws_split s) as (w & E & Hw & _). rewrite H, app_nil_r in E. now subst. Qed.

Lemma read_sound : forall fuel,
  (forall s t r, read_value fuel s = Some (t, r) -> exists w b, s = w ++ b ++ r /\ ws w /\ gvalue b t) /\
  (forall s l r, read_items fuel s = Some (l, r) -> exists b, s = b ++ cRBRACK :: r /\ gitems b l) /\
  (forall s l r, read_members fuel s = Some (l, r) -> exists b, s = b ++ cRBRACE :: r /\ gmembers b l).
Proof.
  induction fuel as [|fuel (IHv & IHi & IHm)]; [repeat split; discriminate|].
  split; [|split].
  - intros s t r H. cbn [read_value] in H. destruct (skip_ws s) as [|c s'] eqn:Es; [discriminate|].
    apply skip_to in Es as (w & -> & Hw).
    assert (G : forall b, c :: s' = b ++ r -> gvalue b t -> exists w0 b0, w ++ c :: s' = w0 ++ b0 ++ r /\ ws w0 /\ gvalue b0 t).
    { intros b E Hg. exists w, b. now rewrite <- E. }
    destruct (N.eqb_spec c cDQ) as [->|_].
    { apply option_map_some in H as ([v r'] & E & H). injection H as -> ->. cbn [fst snd].
      apply (read_string_sound (length s')) in E as (b & -> & Hb & _); [|lia].
      apply (G (cDQ :: b)); [reflexivity|now constructor]. }
    destruct (N.eqb_spec c cLBRACE) as [->|_].
    { destruct (skip_ws s') as [|x s''] eqn:Ex; [discriminate|]. destruct (N.eqb_spec x cRBRACE) as [->|_].
      - injection H as <- <-. apply skip_to in Ex as (w' & -> & Hw').
        apply (G (cLBRACE :: w' ++ [cRBRACE])); [cbn [app]; now rewrite <- app_assoc|now constructor].
      - apply option_map_some in H as ([l r'] & E & H). injection H as -> ->. cbn [fst snd].
        apply IHm in E as (b & -> & Hb).
        apply (G (cLBRACE :: b ++ [cRBRACE])); [cbn [app]; now rewrite <- app_assoc|now constructor]. }
    destruct (N.eqb_spec c cLBRACK) as [->|_].
    { destruct (skip_ws s') as [|x s''] eqn:Ex; [discriminate|]. destruct (N.eqb_spec x cRBRACK) as [->|_].
      - injection H as <- <-. apply skip_to in Ex as (w' & -> & Hw').
        apply (G (cLBRACK :: w' ++ [cRBRACK])); [cbn [app]; now rewrite <- app_assoc|now constructor].
      - apply option_map_some in H as ([l r'] & E & H). injection H as -> ->. cbn [fst snd].
        apply IHi in E as (b & -> & Hb).
        apply (G (cLBRACK :: b ++ [cRBRACK])); [cbn [app]; now rewrite <- app_assoc|now constructor]. }
    destruct (starts_with_str (lit "null") (c :: s')) eqn:E1.
    { injection H as <- <-. apply starts_with_str_skip in E1. apply (G (lit "null")); [exact E1|constructor]. }
    destruct (starts_with_str (lit "true") (c :: s')) eqn:E2.
    { injection H as <- <-. apply starts_with_str_skip in E2. apply (G (lit "true")); [exact E2|constructor]. }
    destruct (starts_with_str (lit "false") (c :: s')) eqn:E3.
    { injection H as <- <-. apply starts_with_str_skip in E3. apply (G (lit "false")); [exact E3|constructor]. }
    destruct (span_number (c :: s')) as [n r'] eqn:En. destruct (json_numeral n) eqn:Ej; [|discriminate].
    injection H as <- <-. apply span_number_spec in En as (En & _ & _). apply (G n); [exact En|now constructor].
  - intros s l r H. cbn [read_items] in H. destruct (read_value fuel s) as [[v r1]|] eqn:Ev; [|discriminate].
    apply IHv in Ev as (w & b & -> & Hw & Hb). destruct (skip_ws r1) as [|c r2] eqn:E; [discriminate|].
    apply skip_to in E as (w2 & -> & Hw2). destruct (N.eqb_spec c cRBRACK) as [->|_].
    + injection H as <- <-. exists (w ++ b ++ w2). split; [now rewrite <- !app_assoc|now constructor].
    + destruct (N.eqb_spec c cCOMMA) as [->|_]; [|discriminate].
      apply option_map_some in H as ([l' r'] & E & H). injection H as -> ->. cbn [fst snd].
      apply IHi in E as (b' & -> & Hb'). exists (w ++ b ++ w2 ++ cCOMMA :: b').
      split; [now rewrite <- !app_assoc; cbn [app]|now constructor].
  - intros s l r H. cbn [read_members] in H. destruct (skip_ws s) as [|c s'] eqn:Es; [discriminate|].
    apply skip_to in Es as (w & -> & Hw). destruct (N.eqb_spec c cDQ) as [->|_]; [|discriminate].
    destruct (read_string s') as [[k r1]|] eqn:Ek; [|discriminate].
    apply (read_string_sound (length s')) in Ek as (kb & -> & Hk & _); [|lia].
    destruct (skip_ws r1) as [|c r2] eqn:E; [discriminate|]. apply skip_to in E as (w2 & -> & Hw2).
    destruct (N.eqb_spec c cCOLON) as [->|_]; [|discriminate].
    destruct (read_value fuel r2) as [[v r3]|] eqn:Ev; [|discriminate]. apply IHv in Ev as (w3 & b & -> & Hw3 & Hb).
    destruct (skip_ws r3) as [|c r4] eqn:E; [discriminate|]. apply skip_to in E as (w4 & -> & Hw4).
    destruct (N.eqb_spec c cRBRACE) as [->|_].
    + injection H as <- <-. exists (w ++ cDQ :: kb ++ w2 ++ cCOLON :: w3 ++ b ++ w4).
      split; [repeat (rewrite <- !app_assoc; cbn [app]); reflexivity|now constructor].
    + destruct (N.eqb_spec c cCOMMA) as [->|_]; [|discriminate].
      apply option_map_some in H as ([l' r'] & E & H). injection H as -> ->. cbn [fst snd].
      apply IHm in E as (b' & -> & Hb'). exists (w ++ cDQ :: kb ++ w2 ++ cCOLON :: w3 ++ b ++ w4 ++ cCOMMA :: b').
      split; [repeat (rewrite <- !app_assoc; cbn [app]); reflexivity|now constructor].
Qed.

(** * Completeness *)

Definition ends' (r : str) : Prop := match r with [] => True | c :: _ => number_char c = false end.

(** The first character of a value. *)
Lemma gvalue_head b t : gvalue b t -> exists c r, b = c :: r /\ json_ws c = false /\ c <> cRBRACK /\ c <> cRBRACE.
Proof.
  intros H. inversion H; subst; try (do 2 eexists; split; [reflexivity|]; split; [reflexivity|split; discriminate]).
  destruct (numeral_chars' _ H0) as (_ & c & r & -> & Hc). exists c, r. split; [reflexivity|].
  unfold json_ws. unfold is_digit in Hc. split; [|split]; lia.
Qed.
Lemma ws_ends w c r : ws w -> number_char c = false -> ends' (w ++ c :: r).
Proof.
  intros Hw Hc. destruct Hw as [|x w Hx _]; [exact Hc|]. cbn. unfold json_ws in Hx. unfold number_char, is_digit. lia.
Qed.
Lemma ws_ends_nil w : ws w -> ends' w.
Proof. intros Hw. destruct Hw as [|x w Hx _]; [exact I|]. cbn. unfold json_ws in Hx. unfold number_char, is_digit. lia. Qed.

Lemma read_value_eq fuel w b r : ws w -> read_value fuel (w ++ b ++ r) = read_value fuel (b ++ r).
Proof. intros H. destruct fuel; [reflexivity|]. cbn [read_value]. now rewrite skip_ws_app. Qed.

(** The fuel needed is bounded by the length. *)
Lemma read_complete :
  (forall b t, gvalue b t -> forall r fuel, ends' r -> 2 * length b + 1 <= fuel -> read_value fuel (b ++ r) = Some (t, r)) /\
  (forall b l, gitems b l -> forall r fuel, 2 * length b + 2 <= fuel -> read_items fuel (b ++ cRBRACK :: r) = Some (l, r)) /\
  (forall b l, gmembers b l -> forall r fuel, 2 * length b + 2 <= fuel -> read_members fuel (b ++ cRBRACE :: r) = Some (l, r)).
Proof.
  apply grammar_ind.
  - intros r [|fuel] _ H; [lia|]. reflexivity.
  - intros r [|fuel] _ H; [lia|]. reflexivity.
  - intros r [|fuel] _ H; [lia|]. reflexivity.
  - intros n Hn r [|fuel] Hr H; [lia|]. destruct (numeral_chars' _ Hn) as (Hall & c & t & En & Hc).
    pose proof (span_number_ends n r Hall Hr) as Hs. rewrite En in Hs |- *. cbn [app] in *. cbn [read_value].
    rewrite skip_ws_cons by (unfold json_ws; unfold is_digit in Hc; lia).
    replace (c =? cDQ)%N with false by (unfold is_digit in Hc; lia).
    replace (c =? cLBRACE)%N with false by (unfold is_digit in Hc; lia).
    replace (c =? cLBRACK)%N with false by (unfold is_digit in Hc; lia).
    cbn [lit starts_with_str].
    replace (N_of_ascii "n" =? c)%N with false by (unfold is_digit in Hc; change (N_of_ascii "n") with 110%N; lia).
    replace (N_of_ascii "t" =? c)%N with false by (unfold is_digit in Hc; change (N_of_ascii "t") with 116%N; lia).
    replace (N_of_ascii "f" =? c)%N with false by (unfold is_digit in Hc; change (N_of_ascii "f") with 102%N; lia).
    cbn [andb]. rewrite Hs. rewrite <- En, Hn. reflexivity.
  - intros b s Hb r [|fuel] _ H; [lia|]. cbn [app read_value]. rewrite skip_ws_cons by reflexivity.
    change (cDQ =? cDQ)%N with true. cbv iota. rewrite (read_string_complete _ _ _ Hb). reflexivity.
  - intros w Hw r [|fuel] _ H; [lia|]. cbn [app read_value]. rewrite skip_ws_cons by reflexivity.
    rewrite <- app_assoc, skip_ws_app by exact Hw. reflexivity.
  - intros b l Hb IH r [|fuel] _ H; [lia|]. cbn [app length] in *. rewrite app_length in H. cbn [length] in H.
    cbn [read_value]. rewrite skip_ws_cons by reflexivity.
    change (cLBRACK =? cDQ)%N with false. change (cLBRACK =? cLBRACE)%N with false. change (cLBRACK =? cLBRACK)%N with true. cbv iota.
    rewrite <- app_assoc. cbn [app]. rewrite IH by lia.
    assert (Hx : exists x r', skip_ws (b ++ cRBRACK :: r) = x :: r' /\ x <> cRBRACK).
    { inversion Hb; subst;
      match goal with H : gvalue _ _ |- _ => destruct (gvalue_head _ _ H) as (x & b' & -> & Hx & Hn & _) end;
      repeat (rewrite <- !app_assoc; cbn [app]); rewrite skip_ws_app, skip_ws_cons by auto; eauto. }
    destruct Hx as (x & r' & -> & Hx). destruct (N.eqb_spec x cRBRACK); [congruence|]. reflexivity.
  - intros w Hw r [|fuel] _ H; [lia|]. cbn [app read_value]. rewrite skip_ws_cons by reflexivity.
    rewrite <- app_assoc, skip_ws_app by exact Hw. reflexivity.
  - intros b l Hb IH r [|fuel] _ H; [lia|]. cbn [app length] in *. rewrite app_length in H. cbn [length] in H.
    cbn [read_value]. rewrite skip_ws_cons by reflexivity.
    change (cLBRACE =? cDQ)%N with false. change (cLBRACE =? cLBRACE)%N with true. cbv iota.
    rewrite <- app_assoc. cbn [app]. rewrite IH by lia.
    assert (Hx : exists x r', skip_ws (b ++ cRBRACE :: r) = x :: r' /\ x <> cRBRACE).
    { inversion Hb; subst; repeat (rewrite <- !app_assoc; cbn [app]); rewrite skip_ws_app, skip_ws_cons by auto;
      do 2 eexists; (split; [reflexivity|discriminate]). }
    destruct Hx as (x & r' & -> & Hx). destruct (N.eqb_spec x cRBRACE); [congruence|]. reflexivity.
  - intros w1 b w2 t Hw1 Hb IH Hw2 r [|fuel] H; [lia|]. rewrite !app_length in H. cbn [read_items].
    repeat (rewrite <- !app_assoc; cbn [app]). rewrite read_value_eq by exact Hw1.
    rewrite IH by (try (apply ws_ends; [exact Hw2|reflexivity]); lia).
    rewrite skip_ws_app, skip_ws_cons by auto. reflexivity.
  - intros w1 b w2 t r0 l Hw1 Hb IH Hw2 Hr0 IHr r [|fuel] H; [lia|]. rewrite !app_length in H. cbn [length] in H. cbn [read_items].
    repeat (rewrite <- !app_assoc; cbn [app]). rewrite read_value_eq by exact Hw1.
    rewrite IH by (try (apply ws_ends; [exact Hw2|reflexivity]); lia).
    rewrite skip_ws_app, skip_ws_cons by auto. change (cCOMMA =? cRBRACK)%N with false. change (cCOMMA =? cCOMMA)%N with true. cbv iota.
    rewrite IHr by lia. reflexivity.
  - intros w1 k s w2 w3 b w4 t Hw1 Hk Hw2 Hw3 Hb IH Hw4 r [|fuel] H; [lia|].
    repeat (rewrite ?app_length in H; cbn [length] in H). cbn [read_members].
    repeat (rewrite <- !app_assoc; cbn [app]). rewrite skip_ws_app, skip_ws_cons by auto.
    change (cDQ =? cDQ)%N with true. cbv iota. rewrite (read_string_complete _ _ _ Hk).
    rewrite skip_ws_app, skip_ws_cons by auto. change (cCOLON =? cCOLON)%N with true. cbv iota.
    rewrite read_value_eq by exact Hw3. rewrite IH by (try (apply ws_ends; [exact Hw4|reflexivity]); lia).
    rewrite skip_ws_app, skip_ws_cons by auto. reflexivity.
  - intros w1 k s w2 w3 b w4 t r0 l Hw1 Hk Hw2 Hw3 Hb IH Hw4 Hr0 IHr r [|fuel] H; [lia|].
    repeat (rewrite ?app_length in H; cbn [length] in H). cbn [read_members].
    repeat (rewrite <- !app_assoc; cbn [app]). rewrite skip_ws_app, skip_ws_cons by auto.
    change (cDQ =? cDQ)%N with true. cbv iota. rewrite (read_string_complete _ _ _ Hk).
    rewrite skip_ws_app, skip_ws_cons by auto. change (cCOLON =? cCOLON)%N with true. cbv iota.
    rewrite read_value_eq by exact Hw3. rewrite IH by (try (apply ws_ends; [exact Hw4|reflexivity]); lia).
    rewrite skip_ws_app, skip_ws_cons by auto. change (cCOMMA =? cRBRACE)%N with false. change (cCOMMA =? cCOMMA)%N with true. cbv iota.
    rewrite IHr by lia. reflexivity.
Qed.

(** The reader is the grammar. *)
Theorem read_json_spec s t : read_json s = Some t <-> json_document s t.
Proof.
  unfold read_json. split.
  - destruct (read_value _ s) as [[t' r]|] eqn:E; [|discriminate]. destruct (skip_ws r) as [|x r'] eqn:Er; cbn [is_empty]; [|discriminate].
    intros H. injection H as ->. apply (proj1 (read_sound _)) in E as (w & b & -> & Hw & Hb).
    exists w, b, r. repeat split; auto. now apply skip_to_nil.
  - intros (w1 & b & w2 & -> & Hw1 & Hb & Hw2). rewrite read_value_eq by exact Hw1.
    rewrite (proj1 read_complete b t Hb w2).
    + now rewrite skip_ws_ws.
    + now apply ws_ends_nil.
    + rewrite !app_length. lia.
Qed.
(** A text is one document at most. *)
Corollary json_document_fun s t t' : json_document s t -> json_document s t' -> t = t'.
Proof. intros H H'. apply read_json_spec in H. apply read_json_spec in H'. congruence. Qed.
