(** Which lines an array consumes (C24) and how many events a document can produce (C43). *)
From Verif Require Import Chars Floats Json Shared Scanner Parser DecValidation Decoders Lex Spec
  DecRel EventBuilder DecProps DecRelax.

Local Open Scope nat_scope.

(** * Consumed lines *)

Definition last_or {A} (l : list A) (d : option A) : option A :=
  match rev l with x :: _ => Some x | [] => d end.

Lemma last_or_app {A} (l m : list A) d : last_or (l ++ m) d = last_or m (last_or l d).
Proof. unfold last_or. rewrite rev_app_distr. destruct (rev m); reflexivity. Qed.
Lemma last_or_cons {A} (x : A) l d : last_or (x :: l) d = last_or l (Some x).
Proof. change (x :: l) with ([x] ++ l). now rewrite last_or_app. Qed.

(** The cursor moved over the lines [pre]. *)
Definition over (c : cursor) (pre : list parsed_line) (c' : cursor) : Prop :=
  cu_rest c = pre ++ cu_rest c' /\ cu_last c' = last_or pre (cu_last c).

Lemma over_nil c : over c [] c.
Proof. now split. Qed.
Lemma over_app a p b q c : over a p b -> over b q c -> over a (p ++ q) c.
Proof.
  intros [H1 H2] [H3 H4]. split.
  - now rewrite H1, H3, app_assoc.
  - now rewrite H4, H2, last_or_app.
Qed.
Lemma over_advance c line : peek c = Some line -> over c [line] (advance c).
Proof.
  unfold peek, advance, over. destruct (cu_rest c) eqn:E; [discriminate|]. cbn.
  intros H. injection H as ->. now split.
Qed.
Lemma over_fun c p q c' : over c p c' -> over c q c' -> p = q.
Proof. intros [H1 _] [H2 _]. rewrite H1 in H2. now apply app_inv_tail in H2. Qed.

(** The range of line numbers after consuming [pre]. *)
Definition range_over (r : option (nat * nat)) (pre : list parsed_line) : option (nat * nat) :=
  match pre with
  | [] => r
  | a :: t => match last_or t (Some a) with
              | Some z => match r with
                          | Some (s, _) => Some (s, pl_line z)
                          | None => Some (pl_line a, pl_line z)
                          end
              | None => r
              end
  end.

Lemma last_some {A} (x : A) l : exists z, last_or l (Some x) = Some z.
Proof. unfold last_or. destruct (rev l); eauto. Qed.

Lemma range_over_app r p q : range_over (range_over r p) q = range_over r (p ++ q).
Proof.
  destruct p as [|a t]; [reflexivity|]. destruct q as [|b u]; [now rewrite app_nil_r|].
  cbn [app range_over]. rewrite last_or_app, last_or_cons.
  destruct (last_some a t) as [z ->]. destruct (last_some b u) as [y ->].
  destruct r as [[s e]|]; reflexivity.
Qed.
Lemma extend_one r a : extend_range r (pl_line a) = range_over r [a].
Proof. destruct r as [[s e]|]; reflexivity. Qed.

Lemma rows_over : forall rest last rd h fields cx count range evs c n rg,
  decode_rows rest last rd h fields cx count range = Ok (evs, c, n, rg) ->
  exists pre, over (Cursor rest last) pre c /\ rg = range_over range pre.
Proof.
  induction rest as [|line r IH]; intros last rd h fields cx count range evs c n rg H;
    cbn [decode_rows] in H.
  - injection H as <- <- <- <-. exists []. split; [apply over_nil|reflexivity].
  - assert (Hend : Ok ([], Cursor (line :: r) last, count, range) = Ok (evs, c, n, rg) ->
      exists pre, over (Cursor (line :: r) last) pre c /\ rg = range_over range pre).
    { intros H'. injection H' as <- <- <- <-. exists []. split; [apply over_nil|reflexivity]. }
    destruct (ah_length h <=? count)%N; auto.
    destruct (Nat.eqb (pl_depth line) rd); auto. clear Hend.
    cbv zeta in H. inv_bind H. injection H as <- <- <- <-.
    apply IH in E1 as (pre & H1 & H2). exists (line :: pre). split.
    + change (line :: pre) with ([line] ++ pre). eapply over_app; [|exact H1]. now split.
    + rewrite H2, extend_one, range_over_app. reflexivity.
Qed.

Lemma tabular_over h fields c d cx evs c' :
  decode_tabular_array h fields c d cx = Ok (evs, c') ->
  exists pre, over c pre c' /\
    exists w, validate_blank_range w (range_over None pre) (dc_blanks cx) (dc_strict cx) = Ok tt.
Proof.
  unfold decode_tabular_array. intros H. inv_bind H. injection H as <- <-.
  repeat match goal with u : unit |- _ => destruct u end.
  apply rows_over in E as (pre & H1 & ->). exists pre. destruct c. eauto.
Qed.

Lemma item_range_over r a c pre c' : cu_last c = Some a -> over c pre c' ->
  item_range r a c' = range_over r (a :: pre).
Proof.
  intros Hl [_ H]. unfold item_range. rewrite H, Hl. cbn [range_over].
  destruct (last_some a pre) as [z ->]. destruct r as [[s e]|]; reflexivity.
Qed.
Lemma advance_last c line : peek c = Some line -> cu_last (advance c) = Some line.
Proof. unfold peek, advance. destruct (cu_rest c); [discriminate|]. now intros [= ->]. Qed.

Lemma dec_over cx :
  (forall content c d evs c', kv_rel cx content c d evs c' -> exists pre, over c pre c') /\
  (forall c base computed evs c', of_rel cx c base computed evs c' -> exists pre, over c pre c') /\
  (forall h iv c d evs c', arr_rel cx h iv c d evs c' ->
     exists pre, over c pre c' /\
       (iv = None -> exists w, validate_blank_range w (range_over None pre) (dc_blanks cx) (dc_strict cx) = Ok tt)) /\
  (forall c depth len count range evs c' n rg,
     items_rel cx c depth len count range evs c' n rg ->
     exists pre, over c pre c' /\ rg = range_over range pre) /\
  (forall line c d evs c', item_rel cx line c d evs c' -> exists pre, over c pre c') /\
  (forall c d evs c', follow_rel cx c d evs c' -> exists pre, over c pre c').
Proof.
  apply dec_mutind; intros;
    repeat match goal with
    | H : exists pre, over _ pre _ |- _ => destruct H as (? & ?)
    | H : exists pre, over _ pre _ /\ _ |- _ => destruct H as (? & ? & ?)
    end; eauto using over_nil, over_app, over_advance.
  - apply tabular_over in H0 as (pre & H1 & w & H2). exists pre. split; [exact H1|]. intros _. exists w. exact H2.
  - eexists. split; [eassumption|]. intros _. subst. eexists. eassumption.
  - eexists. split.
    + eapply over_app; [|eassumption]. eapply over_app; [|eassumption]. apply over_advance; eassumption.
    + match goal with H : rg = _ |- _ => rewrite H end.
      erewrite item_range_over; [|eapply advance_last; eassumption|eassumption].
      rewrite range_over_app. reflexivity.
  Unshelve. all: exact CRows.
Qed.

(** No blank line between two lines consumed by the rows or items of an array. *)
Lemma array_blanks cx h c d evs c' a pre z b :
  arr_rel cx h None c d evs c' -> dc_strict cx = true ->
  cu_rest c = (a :: pre) ++ cu_rest c' -> last_or pre (Some a) = Some z ->
  In b (dc_blanks cx) -> ~ (pl_line a < bl_line b /\ bl_line b < pl_line z).
Proof.
  intros H Hs Hc Hz Hb [H1 H2]. apply dec_over in H as (pre' & Ho & Hv). specialize (Hv eq_refl) as [w Hv].
  assert (pre' = a :: pre) as ->.
  { destruct Ho as [Ho _]. rewrite Hc in Ho. now apply app_inv_tail in Ho. }
  cbn [range_over] in Hv. rewrite Hz in Hv. unfold validate_blank_range, validate_no_blank_lines_in_range in Hv.
  rewrite Hs in Hv. cbn [andb] in Hv.
  assert (Ht : existsb (fun b => Nat.ltb (pl_line a) (bl_line b) && Nat.ltb (bl_line b) (pl_line z)) (dc_blanks cx) = true).
  { apply existsb_exists. exists b. split; auto. apply andb_true_intro. split; now apply Nat.ltb_lt. }
  rewrite Ht in Hv. discriminate.
Qed.

(** * How many events *)

Lemma trim_length s : length (trim s) <= length s.
Proof.
  unfold trim, trim_end. rewrite rev_length.
  assert (H : forall s, length (trim_start s) <= length s).
  { clear. induction s as [|c r IH]; cbn [trim_start]; auto. destruct (is_ws c); cbn [length]; lia. }
  etransitivity; [apply H|]. rewrite rev_length. apply H.
Qed.

Lemma pdv_length d n : forall input q buf acc, length input < n ->
  length (pdv_loop d input q buf acc) <= length acc + length input + 1.
Proof.
  induction n as [|n IH]; intros input q buf acc Hl; [lia|].
  destruct input as [|ch r]; cbn [pdv_loop length] in *.
  - destruct (negb (is_empty buf) || negb (is_empty acc)); [rewrite app_length; cbn|]; lia.
  - destruct ((ch =? cBSLASH)%N && q).
    + destruct r as [|x r]; [specialize (IH [] q (buf ++ [ch]) acc)|specialize (IH r q (buf ++ [ch; x]) acc)];
        cbn [length] in *; lia.
    + destruct (ch =? cDQ)%N; [specialize (IH r (negb q) (buf ++ [ch]) acc); lia|].
      destruct ((ch =? d)%N && negb q).
      * specialize (IH r q [] (acc ++ [trim buf])). rewrite app_length in IH. cbn [length] in IH. lia.
      * specialize (IH r q (buf ++ [ch]) acc). lia.
Qed.
Lemma delimited_length s d : length (parse_delimited_values s d) <= length s + 1.
Proof. unfold parse_delimited_values. etransitivity; [eapply pdv_length; eauto|]. cbn. lia. Qed.

Lemma map_result_length {A B} (g : A -> result B) l : forall m, map_result g l = Ok m -> length m = length l.
Proof.
  induction l as [|a l IH]; intros m H; cbn [map_result] in H; [now injection H as <-|].
  inv_bind H. injection H as <-. cbn. f_equal. auto.
Qed.

Lemma slice_length a b s : length (slice a b s) <= length s.
Proof. unfold slice. rewrite firstn_length, skipn_length. lia. Qed.

Lemma header_sizes s d h iv : parse_array_header_line s d = Ok (Some (h, iv)) ->
  (forall fs, ah_fields h = Some fs -> length fs <= length s + 1) /\
  (forall v, iv = Some v -> length v <= length s).
Proof.
  unfold parse_array_header_line. intros H.
  destruct (bracket_start_of s) as [[bs|]|]; cbn [bind] in H; try discriminate.
  destruct (find_from cRBRACK bs s) as [be|]; [|discriminate].
  destruct (header_colon s be) as [ci|]; [|discriminate].
  destruct (header_key s bs) as [[key kq]|]; cbn [bind] in H; [|discriminate].
  destruct (parse_bracket_segment _ d) as [[len dl]|]; [|discriminate].
  destruct (MAX_DECLARED_ARRAY_LENGTH <? len)%N; [discriminate|].
  destruct (header_fields s be ci dl) as [fields|] eqn:Ef; cbn [bind] in H; [|discriminate].
  injection H as <- <-. cbn [ah_fields]. split.
  - intros fs ->. unfold header_fields in Ef.
    destruct (find_from cLBRACE (S be) s) as [b|]; [|discriminate].
    destruct (Nat.ltb b ci); [|discriminate].
    destruct (find_from cRBRACE b s) as [e|]; [|discriminate].
    destruct (Nat.ltb e ci); [|discriminate].
    inv_bind Ef. injection Ef as ->. unfold parse_fields in E. apply map_result_length in E.
    rewrite E. etransitivity; [apply delimited_length|]. pose proof (slice_length (S b) e s). lia.
  - intros v.
    change (match s with [] => [] | _ :: l => skipn ci l end) with (skipn (S ci) s).
    destruct (is_empty _); intros Hv; [discriminate|].
    assert (v = trim (skipn (S ci) s)) as -> by congruence.
    etransitivity; [apply trim_length|]. rewrite skipn_length. lia.
Qed.

Lemma field_events_length fs : forall ps, length (field_events fs ps) = 2 * length fs.
Proof. induction fs as [|f fs IH]; intros ps; cbn [field_events length]; [reflexivity|]. rewrite IH. lia. Qed.

Section Cost.
Variable cx : dctx.
Variable L : nat.

Definition weight (n : nat) : nat := 2 * Nat.max n L + 6.
Definition wsum (ls : list parsed_line) : nat :=
  list_sum (map (fun l => weight (length (pl_content l))) ls).
Lemma wsum_app a b : wsum (a ++ b) = wsum a + wsum b.
Proof. unfold wsum. now rewrite map_app, list_sum_app. Qed.
Lemma wsum_cons a b : wsum (a :: b) = weight (length (pl_content a)) + wsum b.
Proof. reflexivity. Qed.

(** The weight of the lines still to come. *)
Definition wc (c : cursor) : nat := wsum (cu_rest c).
(** In lenient mode no line is longer than [L]. *)
Definition fits (c : cursor) : Prop :=
  dc_strict cx = true \/ Forall (fun l => length (pl_content l) <= L) (cu_rest c).
Definition fits1 (n : nat) : Prop := dc_strict cx = true \/ n <= L.

Lemma fits_over c pre c' : over c pre c' -> fits c -> fits c'.
Proof.
  intros [H _] [Hf|Hf]; [now left|right]. rewrite H in Hf. now apply Forall_app in Hf.
Qed.
Lemma wc_over c pre c' : over c pre c' -> wc c = wsum pre + wc c'.
Proof. intros [H _]. unfold wc. now rewrite H, wsum_app. Qed.
Lemma fits_peek c line : peek c = Some line -> fits c ->
  fits1 (length (pl_content line)) /\ fits (advance c) /\
  wc c = weight (length (pl_content line)) + wc (advance c).
Proof.
  intros Hp Hf. pose proof (over_advance _ _ Hp) as Ho. pose proof (fits_over _ _ _ Ho Hf).
  pose proof (wc_over _ _ _ Ho) as Hw. rewrite wsum_cons in Hw. change (wsum []) with 0 in Hw. split; [|split; auto; lia].
  destruct Hf as [Hf|Hf]; [now left|right]. destruct Ho as [Ho _]. rewrite Ho in Hf. now inversion Hf.
Qed.

Lemma inline_cost h iv evs : decode_inline_primitive_array h iv cx = Ok evs -> length evs <= length iv + 1.
Proof.
  unfold decode_inline_primitive_array. intros H.
  destruct (is_empty (trim iv)).
  - inv_bind H. injection H as <-. cbn. lia.
  - cbv zeta in H. inv_bind H. injection H as <-. rewrite map_length.
    unfold map_row_values_to_primitives in E. apply map_result_length in E. rewrite E.
    etransitivity; [apply delimited_length|]. pose proof (trim_length iv). lia.
Qed.

Lemma tabular_cost h fields c d evs c' n :
  decode_tabular_array h fields c d cx = Ok (evs, c') -> length fields <= n + 1 -> fits1 n ->
  length evs + wc c' <= wc c.
Proof.
  intros H Hn Hf. apply decode_tabular_spec in H as (rows & Hc & -> & _ & Hrows).
  unfold wc. rewrite Hc, wsum_app. clear Hc. induction Hrows as [|r rows (_ & _ & Hw) _ IH]; cbn [flat_map map];
    [cbn; lia|].
  rewrite wsum_cons, app_length.
  assert (Hy : length (yield_object_from_fields fields (snd r)) = 2 * length fields + 2).
  { unfold yield_object_from_fields. cbn [length]. rewrite app_length, field_events_length. cbn [length]. lia. }
  pose proof (delimited_length (pl_content (fst r)) (ah_delimiter h)) as Hd. unfold weight.
  destruct Hf as [Hs|Hs]; [specialize (Hw Hs)|]; lia.
Qed.

Lemma dec_cost :
  (forall content c d evs c', kv_rel cx content c d evs c' ->
     fits c -> fits1 (length content) -> length evs + wc c' <= length content + 4 + wc c) /\
  (forall c base computed evs c', of_rel cx c base computed evs c' -> fits c ->
     length evs + wc c' <= wc c) /\
  (forall h iv c d evs c', arr_rel cx h iv c d evs c' -> forall n,
     fits c -> fits1 n -> (forall fs, ah_fields h = Some fs -> length fs <= n + 1) ->
     (forall v, iv = Some v -> length v <= n) ->
     length evs + wc c' <= n + 3 + wc c) /\
  (forall c depth len count range evs c' k rg,
     items_rel cx c depth len count range evs c' k rg -> fits c -> length evs + wc c' <= wc c) /\
  (forall line c d evs c', item_rel cx line c d evs c' -> fits c -> fits1 (length (pl_content line)) ->
     length evs + wc c' <= weight (length (pl_content line)) + wc c) /\
  (forall c d evs c', follow_rel cx c d evs c' -> fits c -> length evs + wc c' <= wc c).
Proof.
  assert (Hskip : forall line : parsed_line, length (skipn 2 (pl_content line)) <= length (pl_content line)).
  { intros. rewrite skipn_length. lia. }
  assert (Hf1 : forall a b, a <= b -> fits1 b -> fits1 a).
  { intros a b Hab [H|H]; [now left|right; lia]. }
  apply dec_mutind.
  - intros content c d h iv key evs c' Hh Hk _ IH Hc H1. apply header_sizes in Hh as [Ha Hb].
    specialize (IH (length content) Hc H1 Ha Hb). cbn [length]. lia.
  - intros content c d key e q evs c' Hp Hk Ht Hd _ IH Hc H1. specialize (IH Hc).
    cbn [length]. rewrite app_length. cbn [length]. lia.
  - intros. cbn [length]. lia.
  - intros. cbn [length]. lia.
  - intros. cbn [length]. lia.
  - intros c base computed line e1 c1 e2 c2 Hp Hb Hcd Hkv IH1 _ IH2 Hc.
    destruct (fits_peek _ _ Hp Hc) as (H1 & H2 & H3). specialize (IH1 H2 H1).
    apply dec_over in Hkv as (pre & Ho). specialize (IH2 (fits_over _ _ _ Ho H2)).
    rewrite app_length, H3. unfold weight. lia.
  - intros h iv c d evs H n Hc H1 Ha Hb. apply inline_cost in H. specialize (Hb _ eq_refl).
    cbn [length]. rewrite app_length. cbn [length]. lia.
  - intros h f0 fs c d evs c' Hf H n Hc H1 Ha Hb. eapply tabular_cost in H; eauto.
    cbn [length]. rewrite app_length. cbn [length]. lia.
  - intros h c d evs c' count range Hf _ IH _ _ _ n Hc H1 Ha Hb. specialize (IH Hc).
    cbn [length]. rewrite app_length. cbn [length]. lia.
  - intros. cbn [length]. lia.
  - intros c depth len count range line e1 c1 e2 c2 n rg Hp Hlt Hd Hi Hit IH1 _ IH2 Hc.
    destruct (fits_peek _ _ Hp Hc) as (H1 & H2 & H3). specialize (IH1 H2 H1).
    apply dec_over in Hit as (pre & Ho). specialize (IH2 (fits_over _ _ _ Ho H2)).
    rewrite app_length, H3. lia.
  - intros. unfold weight. cbn [length]. lia.
  - intros line c d h iv evs c' Hst Ht Hh Hp _ IH Hc H1. apply header_sizes in Hp as [Ha Hb].
    specialize (Hskip line). specialize (IH _ Hc (Hf1 _ _ Hskip H1) Ha Hb). unfold weight. lia.
  - intros line c d h iv key fs e1 c1 e2 c2 Hst Ht Hh Hp Hk Hfs Har IH1 _ IH2 Hc H1.
    apply header_sizes in Hp as [Ha Hb].
    specialize (Hskip line). specialize (IH1 _ Hc (Hf1 _ _ Hskip H1) Ha Hb).
    apply dec_over in Har as (pre & Ho & _). specialize (IH2 (fits_over _ _ _ Ho Hc)).
    unfold weight. cbn [length]. rewrite !app_length. cbn [length].
    assert (length (skipn 2 (pl_content line)) <= Nat.max (length (pl_content line)) L) by lia. lia.
  - intros line c d e1 c1 e2 c2 Hst Ht Hna Hnt Hkv Hk IH1 _ IH2 Hc H1.
    specialize (Hskip line). specialize (IH1 Hc (Hf1 _ _ Hskip H1)).
    apply dec_over in Hk as (pre & Ho). specialize (IH2 (fits_over _ _ _ Ho Hc)).
    unfold weight. cbn [length]. rewrite !app_length. cbn [length]. lia.
  - intros. unfold weight. cbn [length]. lia.
  - intros. cbn [length]. lia.
  - intros c d line e1 c1 e2 c2 Hp Hd Hst Hkv IH1 _ IH2 Hc.
    destruct (fits_peek _ _ Hp Hc) as (H1 & H2 & H3). specialize (IH1 H2 H1).
    apply dec_over in Hkv as (pre & Ho). specialize (IH2 (fits_over _ _ _ Ho H2)).
    rewrite app_length, H3. unfold weight. lia.
Qed.

Lemma root_fields_cost c evs c' : root_fields_rel cx c evs c' -> fits c -> length evs + wc c' <= wc c.
Proof.
  induction 1 as [c Hst|c line e1 c1 e2 c2 Hp Hd Hkv Hrf IH]; intros Hc; [cbn; lia|].
  destruct (fits_peek _ _ Hp Hc) as (H1 & H2 & H3).
  pose proof (proj1 dec_cost _ _ _ _ _ Hkv H2 H1) as IH1.
  apply dec_over in Hkv as (pre & Ho). specialize (IH (fits_over _ _ _ Ho H2)).
  rewrite app_length, H3. unfold weight. lia.
Qed.

Lemma lines_cost lines evs c : lines_rel cx lines evs c ->
  (dc_strict cx = true \/ Forall (fun l => length (pl_content l) <= L) lines) ->
  length evs <= 2 + wsum lines.
Proof.
  intros H Hf.
  assert (Hfc : forall first rest, lines = first :: rest ->
     fits1 (length (pl_content first)) /\ fits (Cursor rest (Some first))).
  { intros first rest ->. destruct Hf as [Hf|Hf]; [split; now left|]. inversion Hf; subst. split; now right. }
  destruct H as [|first rest h iv evs c' Hh Hp Ha|first p Hn Hk Hp|first rest e1 c1 e2 c2 Hn Hor Hkv Hrf].
  - cbn. lia.
  - destruct (Hfc _ _ eq_refl) as [H1 H2]. apply header_sizes in Hp as [Hpa Hpb].
    eapply dec_cost in Ha; eauto. rewrite wsum_cons. unfold wc, weight in *. cbn [cu_rest] in *. lia.
  - rewrite wsum_cons. unfold weight. cbn. lia.
  - destruct (Hfc _ _ eq_refl) as [H1 H2]. pose proof Hkv as Hkv'.
    eapply dec_cost in Hkv; eauto. apply dec_over in Hkv' as (pre & Ho).
    apply root_fields_cost in Hrf; [|eapply fits_over; eauto].
    rewrite wsum_cons. cbn [length]. rewrite !app_length. cbn [length]. unfold wc, weight in *. cbn [cu_rest] in *. lia.
Qed.
End Cost.

Lemma scan_contents src ind : forall n,
  Forall (fun l => exists raw, In raw src /\ length (pl_content l) <= length raw) (fst (scan_from n ind src)).
Proof.
  induction src as [|raw r IH]; intros n; cbn [scan_from]; [constructor|].
  specialize (IH (S n)). destruct (scan_from (S n) ind r) as [ls bs]. cbn [fst] in IH.
  assert (H : Forall (fun l => exists raw0, In raw0 (raw :: r) /\ length (pl_content l) <= length raw0) ls).
  { eapply Forall_impl; [|exact IH]. cbn. intros l (x & Hx & Hy). eauto. }
  destruct (nonblank raw); cbn [fst]; auto. constructor; auto.
  exists raw. split; [now left|]. cbn [scan_line pl_content]. rewrite skipn_length. lia.
Qed.

Definition total (src : list str) : nat := list_sum (map (@length _) src).

Lemma total_cons a l : total (a :: l) = length a + total l.
Proof. reflexivity. Qed.

Lemma scan_wsum src ind : forall n,
  wsum 0 (fst (scan_from n ind src)) <= 2 * total src + 6 * length src.
Proof.
  induction src as [|raw r IH]; intros n; cbn [scan_from]; [cbn; lia|].
  specialize (IH (S n)). destruct (scan_from (S n) ind r) as [ls bs]. cbn [fst] in IH.
  rewrite total_cons. cbn [length].
  destruct (nonblank raw); cbn [fst]; [rewrite wsum_cons|lia].
  unfold weight. cbn [scan_line pl_content]. rewrite skipn_length. lia.
Qed.

Lemma scan_wsum_max src ind L : forall n,
  Forall (fun raw => length raw <= L) src ->
  wsum L (fst (scan_from n ind src)) <= (2 * L + 6) * length src.
Proof.
  induction src as [|raw r IH]; intros n H; cbn [scan_from]; [cbn; lia|].
  inversion H as [|? ? Hr Hr']; subst.
  specialize (IH (S n) Hr'). destruct (scan_from (S n) ind r) as [ls bs]. cbn [fst length] in *.
  destruct (nonblank raw); cbn [fst]; [rewrite wsum_cons|lia].
  unfold weight. cbn [scan_line pl_content]. rewrite skipn_length, Nat.mul_succ_r. lia.
Qed.

Lemma stream_cost_strict src o evs : decode_stream_sync src o = Ok evs -> opt_strict o = true ->
  length evs <= 2 * total src + 6 * length src + 2.
Proof.
  intros H Hs. apply stream_ok in H as [_ [c H]]. apply (lines_cost _ 0) in H; [|now left].
  pose proof (scan_wsum src (opt_indent o) 0). lia.
Qed.

Lemma stream_cost_lenient src o evs L : decode_stream_sync src o = Ok evs ->
  Forall (fun raw => length raw <= L) src ->
  length evs <= (2 * L + 6) * length src + 2.
Proof.
  intros H Hs. apply stream_ok in H as [_ [c H]]. apply (lines_cost _ L) in H.
  - pose proof (scan_wsum_max src (opt_indent o) L 0 Hs) as Hm.
    eapply Nat.le_trans; [exact H|]. rewrite Nat.add_comm. apply Nat.add_le_mono_r. exact Hm.
  - right. pose proof (scan_contents src (opt_indent o) 0) as Hc. eapply Forall_impl; [|exact Hc].
    intros l (raw & Hi & Hl). rewrite Forall_forall in Hs. specialize (Hs _ Hi). cbn in *. lia.
Qed.
