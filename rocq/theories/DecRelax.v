(** Simulation: a decode that succeeds also succeeds under weaker checking and on lines that
    differ only in their numbers (C09, C23). *)
From Verif Require Import Chars Floats Json Shared Scanner Parser DecValidation Decoders Lex Spec
  DecRel EventBuilder DecProps.

Local Open Scope nat_scope.

(** [cx'] is lenient, or it is as strict as [cx] and its blank lines are among those of [cx]
    under the renumbering [f], or after all lines, whose numbers satisfy [Q]. *)
Definition relaxes (f : nat -> nat) (Q : nat -> Prop) (cx cx' : dctx) : Prop :=
  (forall x y, x < y -> f x < f y) /\
  (dc_strict cx' = false \/
   (dc_strict cx' = dc_strict cx /\
    forall b, In b (dc_blanks cx') -> (exists b0, In b0 (dc_blanks cx) /\ bl_line b0 = f (bl_line b)) \/
      forall e, Q e -> e <= bl_line b)).

Section Sim.
Variable f : nat -> nat.
Variable Q : nat -> Prop.
Variables cx cx' : dctx.
Hypothesis Hr : relaxes f Q cx cx'.

(** Same line up to its number; the number matters only in strict mode. *)
Definition same_line (a b : parsed_line) : Prop :=
  pl_raw a = pl_raw b /\ pl_indent a = pl_indent b /\ pl_content a = pl_content b /\
  pl_depth a = pl_depth b /\ (dc_strict cx' = true -> pl_line a = f (pl_line b) /\ Q (pl_line b)).
Definition same_lines : list parsed_line -> list parsed_line -> Prop := Forall2 same_line.
Definition same_last (a b : option parsed_line) : Prop :=
  dc_strict cx' = true ->
  match a, b with
  | None, None => True
  | Some a, Some b => pl_line a = f (pl_line b) /\ Q (pl_line b)
  | _, _ => False
  end.
Definition same_cursor (c d : cursor) : Prop :=
  same_lines (cu_rest c) (cu_rest d) /\ same_last (cu_last c) (cu_last d).
Definition same_range (r r' : option (nat * nat)) : Prop :=
  dc_strict cx' = true -> r = option_map (fun se => (f (fst se), f (snd se))) r' /\
    forall se, r' = Some se -> Q (snd se).

Lemma same_extend r r' a b : same_range r r' -> (dc_strict cx' = true -> pl_line a = f (pl_line b) /\ Q (pl_line b)) ->
  same_range (extend_range r (pl_line a)) (extend_range r' (pl_line b)).
Proof.
  intros H1 H2 Hs. destruct (H1 Hs) as [-> H3], (H2 Hs) as [-> H4].
  destruct r' as [[x y]|]; (split; [reflexivity|]); intros se E; injection E as <-; exact H4.
Qed.

Lemma relax_count w a b :
  assert_expected_count w a b (dc_strict cx) = Ok tt -> assert_expected_count w a b (dc_strict cx') = Ok tt.
Proof. destruct Hr as [_ [->|[-> _]]]; auto. Qed.

Lemma relax_blank w r r' : same_range r r' ->
  validate_blank_range w r (dc_blanks cx) (dc_strict cx) = Ok tt ->
  validate_blank_range w r' (dc_blanks cx') (dc_strict cx') = Ok tt.
Proof.
  intros Hsr. unfold validate_blank_range, validate_no_blank_lines_in_range.
  destruct (dc_strict cx') eqn:Es; [|destruct r' as [[]|]; auto].
  destruct Hr as [Hm [H|[Hst Hb]]]; [congruence|]. rewrite <- Hst, Es. destruct (Hsr Es) as [-> Hq].
  destruct r' as [[s e]|]; cbn [option_map fst snd andb]; auto.
  destruct (existsb _ (dc_blanks cx)) eqn:E1; [discriminate|]. intros _.
  destruct (existsb _ (dc_blanks cx')) eqn:E2; [|reflexivity]. exfalso.
  apply existsb_exists in E2 as (b & Hin & Hb2). apply andb_prop in Hb2 as [H1 H2].
  apply Nat.ltb_lt in H1, H2. destruct (Hb b Hin) as [(b0 & Hin0 & Eb)|Hfar].
  2:{ specialize (Hfar e (Hq _ eq_refl)). lia. }
  assert (Ht : existsb (fun b => Nat.ltb (f s) (bl_line b) && Nat.ltb (bl_line b) (f e)) (dc_blanks cx) = true).
  { apply existsb_exists. exists b0. split; auto. rewrite Eb.
    apply Hm in H1, H2. apply andb_true_intro. split; now apply Nat.ltb_lt. }
  congruence.
Qed.

Lemma same_peek c d : same_cursor c d ->
  match peek c, peek d with
  | None, None => True
  | Some a, Some b => same_line a b /\ same_cursor (advance c) (advance d)
  | _, _ => False
  end.
Proof.
  unfold same_cursor, peek, advance. intros [H _]. inversion H as [|a b l l' Hab Hl]; cbn; auto.
  split; [exact Hab|]. split; [exact Hl|]. intros Hs. now apply Hab.
Qed.

Lemma same_peek_some c d line : same_cursor c d -> peek c = Some line ->
  exists line', peek d = Some line' /\ same_line line line' /\ same_cursor (advance c) (advance d).
Proof.
  intros H Hp. apply same_peek in H. rewrite Hp in H. destruct (peek d) as [b|]; [|contradiction].
  exists b. tauto.
Qed.

Lemma relax_extra_items c c2 d n : same_cursor c c2 ->
  validate_no_extra_list_items (peek c) d n (dc_strict cx) = Ok tt ->
  validate_no_extra_list_items (peek c2) d n (dc_strict cx') = Ok tt.
Proof.
  intros Hs. apply same_peek in Hs. unfold validate_no_extra_list_items.
  destruct (peek c) as [a|], (peek c2) as [b|]; auto; try contradiction.
  destruct Hs as [(_ & _ & -> & -> & _) _]. destruct Hr as [_ [->|[-> _]]]; auto.
Qed.
Lemma relax_extra_rows c c2 d dl n : same_cursor c c2 ->
  validate_no_extra_tabular_rows (peek c) d dl n (dc_strict cx) = Ok tt ->
  validate_no_extra_tabular_rows (peek c2) d dl n (dc_strict cx') = Ok tt.
Proof.
  intros Hs. apply same_peek in Hs. unfold validate_no_extra_tabular_rows.
  destruct (peek c) as [a|], (peek c2) as [b|]; auto; try contradiction.
  destruct Hs as [(_ & _ & -> & -> & _) _]. destruct Hr as [_ [->|[-> _]]]; auto.
Qed.

Lemma relax_inline h iv evs :
  decode_inline_primitive_array h iv cx = Ok evs -> decode_inline_primitive_array h iv cx' = Ok evs.
Proof.
  unfold decode_inline_primitive_array. cbv zeta. intros H.
  destruct (is_empty (trim iv)); inv_bind H; injection H as <-.
  - destruct a. now rewrite relax_count.
  - destruct a0. cbn [bind]. now rewrite relax_count.
Qed.

Lemma relax_rows : forall rest last rd h fields count range evs c n rg,
  decode_rows rest last rd h fields cx count range = Ok (evs, c, n, rg) ->
  forall rest' last' range', same_cursor (Cursor rest last) (Cursor rest' last') -> same_range range range' ->
  exists c' rg', decode_rows rest' last' rd h fields cx' count range' = Ok (evs, c', n, rg') /\
    same_cursor c c' /\ same_range rg rg'.
Proof.
  induction rest as [|line r IH]; intros last rd h fields count range evs c n rg H
    rest' last' range' [Hs Hlast] Hrg; cbn [cu_rest cu_last] in *;
    inversion Hs as [|? line' ? r' Hl Hr0]; subst; cbn [decode_rows] in *.
  - injection H as <- <- <- <-. eexists _, _. split; [reflexivity|]. split; [split; [exact Hs|exact Hlast]|exact Hrg].
  - assert (Hend : Ok ([], Cursor (line :: r) last, count, range) = Ok (evs, c, n, rg) ->
      exists c' rg', Ok (@nil event, Cursor (line' :: r') last', count, range') = Ok (evs, c', n, rg') /\
        same_cursor c c' /\ same_range rg rg').
    { intros H'. injection H' as <- <- <- <-. eexists _, _. split; [reflexivity|]. split; [split; [exact Hs|exact Hlast]|exact Hrg]. }
    destruct (ah_length h <=? count)%N; auto.
    destruct Hl as (_ & _ & El & Ed & En). rewrite <- Ed, <- El.
    destruct (Nat.eqb (pl_depth line) rd); auto. clear Hend. cbv zeta in *.
    inv_bind H. injection H as <- <- <- <-. destruct a.
    rewrite relax_count by auto. cbn [bind].
    eapply IH in E1 as (c' & rg' & E1 & Hc & Hg).
    + exists c', rg'. split; auto. rewrite E1. reflexivity.
    + split; [exact Hr0|exact En].
    + now apply same_extend.
Qed.

Lemma relax_tabular h fields c c2 d evs c' : same_cursor c c2 ->
  decode_tabular_array h fields c d cx = Ok (evs, c') ->
  exists c2', decode_tabular_array h fields c2 d cx' = Ok (evs, c2') /\ same_cursor c' c2'.
Proof.
  intros Hs H. unfold decode_tabular_array in *. inv_bind H. injection H as <- <-.
  repeat match goal with u : unit |- _ => destruct u end.
  assert (Hs0 : same_cursor (Cursor (cu_rest c) (cu_last c)) (Cursor (cu_rest c2) (cu_last c2)))
    by (destruct c, c2; exact Hs).
  eapply relax_rows with (range' := None) in E as (c2' & rg' & E & Hc & Hg); [|exact Hs0|intros _; split; [reflexivity|discriminate]].
  rewrite E. cbn [bind].
  rewrite relax_count by auto. cbn [bind]. erewrite relax_blank by eauto. cbn [bind].
  erewrite relax_extra_rows by eauto. exists c2'. auto.
Qed.

Lemma same_deeper c d n : same_cursor c d -> deeper c n = deeper d n.
Proof.
  intros H. apply same_peek in H. unfold deeper.
  destruct (peek c), (peek d); try contradiction; auto. destruct H as [(_ & _ & _ & -> & _) _]. auto.
Qed.

Lemma same_item_range r r' a b c d : same_range r r' -> same_line a b -> same_cursor c d ->
  same_range (item_range r a c) (item_range r' b d).
Proof.
  intros H1 (_ & _ & _ & _ & H2) [_ H3] Hs. unfold item_range. specialize (H3 Hs).
  destruct (cu_last c) as [x|], (cu_last d) as [y|]; try contradiction.
  - apply same_extend; auto. now apply same_extend.
  - now apply same_extend.
Qed.

Lemma dec_relax :
  (forall content c d evs c', kv_rel cx content c d evs c' ->
     forall c2, same_cursor c c2 -> exists c2', kv_rel cx' content c2 d evs c2' /\ same_cursor c' c2') /\
  (forall c base computed evs c', of_rel cx c base computed evs c' ->
     forall c2, same_cursor c c2 -> exists c2', of_rel cx' c2 base computed evs c2' /\ same_cursor c' c2') /\
  (forall h iv c d evs c', arr_rel cx h iv c d evs c' ->
     forall c2, same_cursor c c2 -> exists c2', arr_rel cx' h iv c2 d evs c2' /\ same_cursor c' c2') /\
  (forall c depth len count range evs c' n rg,
     items_rel cx c depth len count range evs c' n rg ->
     forall c2 range2, same_cursor c c2 -> same_range range range2 ->
     exists c2' rg2, items_rel cx' c2 depth len count range2 evs c2' n rg2 /\ same_cursor c' c2' /\
       same_range rg rg2) /\
  (forall line c d evs c', item_rel cx line c d evs c' ->
     forall line2 c2, same_line line line2 -> same_cursor c c2 ->
     exists c2', item_rel cx' line2 c2 d evs c2' /\ same_cursor c' c2') /\
  (forall c d evs c', follow_rel cx c d evs c' ->
     forall c2, same_cursor c c2 -> exists c2', follow_rel cx' c2 d evs c2' /\ same_cursor c' c2').
Proof.
  apply dec_mutind.
  - intros content c d h iv key evs c' Hh Hk _ IH c2 Hs. destruct (IH c2 Hs) as (c2' & H & Hs').
    exists c2'. split; auto. eapply kv_header; eauto.
  - intros content c d key e q evs c' Hp Hk Ht Hd _ IH c2 Hs. destruct (IH c2 Hs) as (c2' & H & Hs').
    exists c2'. split; auto. eapply kv_nested; eauto. now rewrite <- (same_deeper c).
  - intros content c d key e q Hp Hk Ht Hd c2 Hs. exists c2. split; auto. eapply kv_empty; eauto.
    now rewrite <- (same_deeper c).
  - intros content c d key e q p Hp Hk Ht Hpp c2 Hs. exists c2. split; auto. eapply kv_prim; eauto.
  - intros c base computed Hst c2 Hs. exists c2. split; auto. apply of_end.
    unfold fields_stop in *. apply same_peek in Hs. destruct (peek c), (peek c2); auto; try contradiction.
    destruct Hs as [(_ & _ & _ & <- & _) _]. auto.
  - intros c base computed line e1 c1 e2 c2 Hp Hb Hc _ IH1 _ IH2 d Hs.
    destruct (same_peek_some _ _ _ Hs Hp) as (line' & Hp' & (_ & _ & El & Ed & _) & Hs').
    destruct (IH1 _ Hs') as (d1 & H1 & Hs1). destruct (IH2 _ Hs1) as (d2 & H2 & Hs2).
    exists d2. split; auto. rewrite Ed in *. rewrite El in *. eapply of_step; eauto.
  - intros h iv c d evs H c2 Hs. exists c2. split; auto. apply arr_inline. eapply relax_inline; eauto.
  - intros h f0 fs c d evs c' Hf H c2 Hs. eapply relax_tabular in H as (c2' & H & Hs'); eauto.
    exists c2'. split; auto. eapply arr_table; eauto.
  - intros h c d evs c' count range Hf _ IH H1 H2 H3 c2 Hs.
    destruct (IH c2 None Hs) as (c2' & rg2 & H & Hs' & Hg); [intros _; split; [reflexivity|discriminate]|].
    exists c2'. split; auto. eapply arr_list; eauto.
    + eapply relax_count; eauto.
    + eapply relax_blank; eauto.
    + eapply relax_extra_items; eauto.
  - intros c depth len count range Hst c2 range2 Hs Hrg. exists c2, range2. split; auto. apply items_end.
    unfold items_stop in *. apply same_peek in Hs. destruct (peek c), (peek c2); auto; try contradiction.
    destruct Hs as [(_ & _ & <- & <- & _) _]. auto.
  - intros c depth len count range line e1 c1 e2 c2 n rg Hp Hlt Hd Hi _ IH1 _ IH2 d range2 Hs Hrg.
    destruct (same_peek_some _ _ _ Hs Hp) as (line' & Hp' & Hl & Hs').
    destruct (IH1 line' _ Hl Hs') as (d1 & H1 & Hs1).
    destruct (IH2 _ (item_range range2 line' d1) Hs1) as (d2 & rg2 & H2 & Hs2 & Hg).
    { now apply same_item_range. }
    exists d2, rg2. split; auto. destruct Hl as (_ & _ & El & Ed & _). rewrite Ed in *. rewrite El in *.
    eapply items_step; eauto.
  - intros line c d Hm line2 c2 (_ & _ & El & Ed & _) Hs. exists c2. split; auto. apply item_marker.
    now rewrite <- El.
  - intros line c d h iv evs c' Hst Ht Hh Hp _ IH line2 c2 (_ & _ & El & Ed & _) Hs.
    destruct (IH c2 Hs) as (c2' & H & Hs'). exists c2'. split; auto. rewrite El in *.
    eapply item_array; eauto.
  - intros line c d h iv key fs e1 c1 e2 c2 Hst Ht Hh Hp Hk Hfs _ IH1 _ IH2 line2 d2 (_ & _ & El & Ed & _) Hs.
    destruct (IH1 _ Hs) as (d3 & H1 & Hs1). destruct (IH2 _ Hs1) as (d4 & H2 & Hs2).
    exists d4. split; auto. rewrite El in *. eapply item_table; eauto.
  - intros line c d e1 c1 e2 c2 Hst Ht Hna Hnt Hkv _ IH1 _ IH2 line2 d2 (_ & _ & El & Ed & _) Hs.
    destruct (IH1 _ Hs) as (d3 & H1 & Hs1). destruct (IH2 _ Hs1) as (d4 & H2 & Hs2).
    exists d4. split; auto. rewrite El in *. eapply item_object; eauto.
  - intros line c d p Hst Ht Hna Hnt Hkv Hpp line2 d2 (_ & _ & El & Ed & _) Hs.
    exists d2. split; auto. rewrite El in *. eapply item_prim; eauto.
  - intros c d Hst c2 Hs. exists c2. split; auto. apply follow_end.
    unfold follow_stop in *. apply same_peek in Hs. destruct (peek c), (peek c2); auto; try contradiction.
    destruct Hs as [(_ & _ & <- & <- & _) _]. auto.
  - intros c d line e1 c1 e2 c2 Hp Hd Hst _ IH1 _ IH2 d0 Hs.
    destruct (same_peek_some _ _ _ Hs Hp) as (line' & Hp' & (_ & _ & El & Ed & _) & Hs').
    destruct (IH1 _ Hs') as (d1 & H1 & Hs1). destruct (IH2 _ Hs1) as (d2 & H2 & Hs2).
    exists d2. split; auto. rewrite Ed in *. rewrite El in *. eapply follow_step; eauto.
Qed.

Lemma root_fields_relax c evs c' : root_fields_rel cx c evs c' ->
  forall c2, same_cursor c c2 -> exists c2', root_fields_rel cx' c2 evs c2' /\ same_cursor c' c2'.
Proof.
  induction 1 as [c Hst|c line e1 c1 e2 c2 Hp Hd Hkv Hrf IH]; intros d Hs.
  - exists d. split; auto. apply rf_end. apply same_peek in Hs.
    destruct (peek c), (peek d); auto; try contradiction. destruct Hs as [(_ & _ & _ & <- & _) _]. auto.
  - destruct (same_peek_some _ _ _ Hs Hp) as (line' & Hp' & (_ & _ & El & Ed & _) & Hs').
    eapply dec_relax in Hkv as (d1 & H1 & Hs1); [|exact Hs'].
    destruct (IH _ Hs1) as (d2 & H2 & Hs2). exists d2. split; auto.
    rewrite Ed in *. rewrite El in *. eapply rf_step; eauto.
Qed.

Lemma lines_relax lines lines' evs c : same_lines lines lines' ->
  lines_rel cx lines evs c -> exists c', lines_rel cx' lines' evs c'.
Proof.
  intros Hs H. destruct H as [|first rest h iv evs c' Hh Hp Ha|first p Hn Hk Hp|first rest e1 c1 e2 c2 Hn Hor Hkv Hrf];
    inversion Hs as [|? first' ? rest' (_ & _ & El & Ed & En) Hs']; subst; rewrite ?El in *.
  - eexists. constructor.
  - assert (Hs2 : same_cursor (Cursor rest (Some first)) (Cursor rest' (Some first'))) by (split; auto; exact En).
    eapply dec_relax in Ha as (d & Ha & _); [|exact Hs2]. eexists; eapply lr_array; eauto.
  - inversion Hs'; subst. eexists. now apply lr_prim.
  - assert (Hs2 : same_cursor (Cursor rest (Some first)) (Cursor rest' (Some first'))) by (split; auto; exact En).
    eapply dec_relax in Hkv as (d & Ha & Hd); [|exact Hs2].
    eapply root_fields_relax in Hrf as (d' & Hb & _); [|exact Hd].
    eexists. eapply lr_object; eauto. destruct Hor as [Hor|Hor]; auto. left. intros ->.
    inversion Hs'; subst. congruence.
Qed.

End Sim.

(** * The scanner *)

Definition nonblank (s : str) : bool := negb (forallb is_ws s).

Lemma all_ws_forallb s : all_ws s <-> forallb is_ws s = true.
Proof. unfold all_ws. rewrite Forall_forall, forallb_forall. tauto. Qed.

Lemma count_spaces_spec s : s = spaces (count_spaces s) ++ skipn (count_spaces s) s.
Proof.
  induction s as [|c s IH]; cbn [count_spaces]; [reflexivity|].
  destruct (N.eqb_spec c cSPACE); [|reflexivity]. subst. cbn. f_equal. exact IH.
Qed.

Lemma blank_trim raw : is_empty (trim (skipn (count_spaces raw) raw)) = negb (nonblank raw).
Proof.
  unfold nonblank. rewrite negb_involutive.
  destruct (forallb is_ws raw) eqn:E.
  - apply all_ws_forallb in E. rewrite (count_spaces_spec raw) in E. apply all_ws_app in E as [_ E].
    apply trim_nil in E. now rewrite E.
  - apply is_empty_false. intros H. apply trim_nil in H.
    assert (Hw : all_ws raw).
    { rewrite (count_spaces_spec raw). apply all_ws_app. split; auto. apply all_ws_spaces. }
    apply all_ws_forallb in Hw. congruence.
Qed.

(** The line a non-blank source line becomes. *)
Definition scan_line (raw : str) (ind num : nat) : parsed_line :=
  PLine raw (count_spaces raw) (skipn (count_spaces raw) raw)
        (compute_depth_from_indent (count_spaces raw) ind) num.

(** The indentation check of strict mode. *)
Definition indent_error (num : nat) (raw : str) (ind : nat) : option err :=
  if contains cTAB (firstn (count_space_tab raw) raw) then Some (ETabIndent num)
  else match ind with
       | O => if Nat.ltb 0 (count_spaces raw) then Some (EIndentZero num (count_spaces raw)) else None
       | _ => if Nat.ltb 0 (count_spaces raw) && negb (Nat.eqb (Nat.modulo (count_spaces raw) ind) 0)
              then Some (EIndentMultiple num ind (count_spaces raw)) else None
       end.

Lemma indent_error_num a b raw ind : indent_error a raw ind = None -> indent_error b raw ind = None.
Proof.
  unfold indent_error. destruct (contains _ _); [discriminate|]. destruct ind; [destruct (Nat.ltb _ _)|destruct (_ && _)]; auto; discriminate.
Qed.

Lemma parse_line_eq raw st ind strict :
  parse_line_incremental raw st ind strict =
  if nonblank raw then
    match (if strict then indent_error (S (ss_line st)) raw ind else None) with
    | Some e => Err e
    | None => Ok (Some (scan_line raw ind (S (ss_line st))), ScanState (S (ss_line st)) (ss_blanks st))
    end
  else Ok (None, ScanState (S (ss_line st))
             (ss_blanks st ++ [BLine (S (ss_line st)) (count_spaces raw)
                                (compute_depth_from_indent (count_spaces raw) ind)])).
Proof.
  unfold parse_line_incremental. cbv zeta. rewrite blank_trim.
  destruct (nonblank raw); cbn [negb]; [|reflexivity].
  unfold indent_error. destruct strict; [|reflexivity].
  destruct (contains cTAB (firstn (count_space_tab raw) raw)); [reflexivity|].
  destruct ind as [|ind].
  - destruct (Nat.ltb 0 (count_spaces raw)); reflexivity.
  - destruct (Nat.ltb 0 (count_spaces raw) && _); reflexivity.
Qed.

(** The scanner as a recursive function with the line number and no error. *)
Fixpoint scan_from (n : nat) (ind : nat) (src : list str) : list parsed_line * list blank_line :=
  match src with
  | [] => ([], [])
  | raw :: r =>
      let '(ls, bs) := scan_from (S n) ind r in
      if nonblank raw then (scan_line raw ind (S n) :: ls, bs)
      else (ls, BLine (S n) (count_spaces raw)
                  (compute_depth_from_indent (count_spaces raw) ind) :: bs)
  end.

Definition indent_clean (ind : nat) (src : list str) : Prop :=
  Forall (fun raw => nonblank raw = true -> forall num, indent_error num raw ind = None) src.

Lemma parse_lines_scan src : forall ind strict st ls st',
  parse_lines_sync src ind strict st = Ok (ls, st') <->
  ((strict = true -> indent_clean ind src) /\
   ls = fst (scan_from (ss_line st) ind src) /\
   st' = ScanState (ss_line st + length src) (ss_blanks st ++ snd (scan_from (ss_line st) ind src))).
Proof.
  induction src as [|raw r IH]; intros ind strict [n bs] ls st'; cbn [parse_lines_sync scan_from].
  - cbn. rewrite Nat.add_0_r, app_nil_r. split.
    + intros H. injection H as <- <-. repeat split; auto. intros. constructor.
    + intros (_ & -> & ->). reflexivity.
  - rewrite parse_line_eq. cbn [ss_line ss_blanks length].
    destruct (scan_from (S n) ind r) as [ls0 bs0] eqn:Es.
    destruct (nonblank raw) eqn:En.
    + destruct (if strict then indent_error (S n) raw ind else None) as [e|] eqn:Ee.
      * cbn [bind]. split; [discriminate|]. intros (Hc & _). destruct strict; [|discriminate].
        specialize (Hc eq_refl). inversion Hc; subst. rewrite H1 in Ee by auto. discriminate.
      * assert (Hiff : (strict = true -> indent_clean ind r) <-> (strict = true -> indent_clean ind (raw :: r))).
        { split; intros H Hs; specialize (H Hs).
          - constructor; auto. intros _ num. rewrite Hs in Ee. eapply indent_error_num; eauto.
          - now inversion H. }
        cbn [bind]. split.
        -- intros H. inv_bind H. injection H as <- <-. apply IH in E as (H1 & -> & ->).
           cbn [ss_line ss_blanks]. rewrite Es. cbn [fst snd]. repeat split; [now apply Hiff|].
           f_equal; lia.
        -- intros (H1 & -> & ->). rewrite <- Hiff in H1.
           assert (E : parse_lines_sync r ind strict (ScanState (S n) bs)
                   = Ok (ls0, ScanState (S n + length r) (bs ++ bs0))).
           { apply IH. cbn [ss_line ss_blanks]. rewrite Es. auto. }
           rewrite E. cbn [bind fst snd]. do 3 f_equal. lia.
    + assert (Hiff : (strict = true -> indent_clean ind r) <-> (strict = true -> indent_clean ind (raw :: r))).
      { split; intros H Hs; specialize (H Hs).
        - constructor; auto. congruence.
        - now inversion H. }
      cbn [bind].
      set (b := BLine (S n) (count_spaces raw) (compute_depth_from_indent (count_spaces raw) ind)).
      assert (E : (strict = true -> indent_clean ind r) ->
                 parse_lines_sync r ind strict (ScanState (S n) (bs ++ [b]))
                   = Ok (ls0, ScanState (S n + length r) ((bs ++ [b]) ++ bs0))).
      { intros Hc. apply IH. cbn [ss_line ss_blanks]. rewrite Es. auto. }
      split.
      * intros H.
        destruct (parse_lines_sync r ind strict (ScanState (S n) (bs ++ [b]))) as [[ls1 st1]|e] eqn:E1;
          [|discriminate]. cbn [bind] in H. injection H as <- <-.
        pose proof E1 as H. apply IH in H as (H1 & _ & _).
        specialize (E H1). injection E as -> ->. repeat split; [now apply Hiff|].
        cbn [snd]. rewrite <- app_assoc. f_equal. lia.
      * intros (H1 & -> & ->). rewrite E by now apply Hiff. cbn [bind fst snd]. rewrite <- app_assoc.
        do 3 f_equal. lia.
Qed.

(** Removing blank lines leaves the scanned lines alone, up to numbers. *)
Lemma scan_nonblank src : forall n m ind, 
  Forall2 (fun a b => pl_raw a = pl_raw b /\ pl_indent a = pl_indent b /\
                      pl_content a = pl_content b /\ pl_depth a = pl_depth b)
    (fst (scan_from n ind src)) (fst (scan_from m ind (filter nonblank src))).
Proof.
  induction src as [|raw r IH]; intros n m ind; cbn [scan_from filter]; [constructor|].
  destruct (scan_from (S n) ind r) as [ls bs] eqn:En. destruct (nonblank raw) eqn:E.
  - cbn [scan_from]. specialize (IH (S n) (S m) ind). rewrite En in IH.
    destruct (scan_from (S m) ind (filter nonblank r)). rewrite E. cbn [fst] in *.
    constructor; [repeat split|exact IH].
  - specialize (IH (S n) m ind). rewrite En in IH. exact IH.
Qed.

Lemma scan_numbers src : forall n ind,
  Forall (fun l => n < pl_line l /\ pl_line l <= n + length src) (fst (scan_from n ind src)) /\
  Forall (fun b => n < bl_line b /\ bl_line b <= n + length src) (snd (scan_from n ind src)).
Proof.
  induction src as [|raw r IH]; intros n ind; cbn [scan_from length]; [split; constructor|].
  specialize (IH (S n) ind). destruct (scan_from (S n) ind r) as [ls bs]. cbn [fst snd] in IH.
  destruct IH as [H1 H2].
  assert (H1' : Forall (fun l => n < pl_line l /\ pl_line l <= n + S (length r)) ls).
  { eapply Forall_impl; [|exact H1]. cbn. intros; lia. }
  assert (H2' : Forall (fun l => n < bl_line l /\ bl_line l <= n + S (length r)) bs).
  { eapply Forall_impl; [|exact H2]. cbn. intros; lia. }
  destruct (nonblank raw); cbn [fst snd]; split; auto; constructor; auto; cbn; lia.
Qed.

Lemma scan_app a : forall b n ind,
  scan_from n ind (a ++ b) =
  (fst (scan_from n ind a) ++ fst (scan_from (n + length a) ind b),
   snd (scan_from n ind a) ++ snd (scan_from (n + length a) ind b)).
Proof.
  induction a as [|raw r IH]; intros b n ind; cbn [scan_from app length].
  - cbn. rewrite Nat.add_0_r. apply surjective_pairing.
  - rewrite IH. replace (n + S (length r)) with (S n + length r) by lia.
    destruct (scan_from (S n) ind r). destruct (nonblank raw); reflexivity.
Qed.

Lemma scan_shift src : forall n ind,
  Forall2 (fun a b => pl_raw a = pl_raw b /\ pl_indent a = pl_indent b /\
                      pl_content a = pl_content b /\ pl_depth a = pl_depth b /\
                      pl_line a = S (pl_line b))
    (fst (scan_from (S n) ind src)) (fst (scan_from n ind src)) /\
  Forall2 (fun a b => bl_line a = S (bl_line b)) 
    (snd (scan_from (S n) ind src)) (snd (scan_from n ind src)).
Proof.
  induction src as [|raw r IH]; intros n ind; cbn [scan_from]; [split; constructor|].
  specialize (IH (S n) ind). destruct (scan_from (S (S n)) ind r), (scan_from (S n) ind r).
  cbn [fst snd] in IH. destruct IH as [H1 H2]. destruct (nonblank raw); cbn [fst snd]; split; auto;
    constructor; auto; cbn; auto 10.
Qed.

(** * The decoder on source lines *)

Definition opt_indent (o : option dstream_options) : nat :=
  unwrap_or (dso_indent (unwrap_or o (DStreamOpts None None))) 2.
Definition opt_strict (o : option dstream_options) : bool :=
  unwrap_or (dso_strict (unwrap_or o (DStreamOpts None None))) true.

Lemma stream_ok src o evs :
  decode_stream_sync src o = Ok evs <->
  ((opt_strict o = true -> indent_clean (opt_indent o) src) /\
   exists c, lines_rel (DCtx (opt_strict o) (snd (scan_from 0 (opt_indent o) src)))
               (fst (scan_from 0 (opt_indent o) src)) evs c).
Proof.
  unfold decode_stream_sync. cbv zeta. fold (opt_indent o) (opt_strict o). split.
  - intros H. inv_bind H. injection H as <-. apply parse_lines_scan in E as (H1 & -> & ->).
    split; auto. exists c. now apply decode_lines_exact.
  - intros [H1 [c H2]]. apply decode_lines_exact in H2.
    assert (E : parse_lines_sync src (opt_indent o) (opt_strict o) create_scan_state =
      Ok (fst (scan_from 0 (opt_indent o) src),
          ScanState (0 + length src) ([] ++ snd (scan_from 0 (opt_indent o) src)))).
    { apply parse_lines_scan. auto. }
    rewrite E. cbn [bind]. cbn [app ss_blanks]. rewrite H2. reflexivity.
Qed.

Lemma indent_clean_filter ind src : indent_clean ind src <-> indent_clean ind (filter nonblank src).
Proof.
  unfold indent_clean. induction src as [|a r IH]; cbn [filter]; [tauto|].
  destruct (nonblank a) eqn:E; split; intros H.
  - inversion H; subst. constructor; auto. now apply IH.
  - inversion H; subst. constructor; auto. now apply IH.
  - inversion H; subst. now apply IH.
  - constructor; [congruence|]. now apply IH.
Qed.

(** Lenient decoding looks only at the lines that are not blank. *)
Lemma stream_lenient src src' o o' evs :
  filter nonblank src = filter nonblank src' -> opt_indent o = opt_indent o' -> opt_strict o' = false ->
  decode_stream_sync src o = Ok evs -> decode_stream_sync src' o' = Ok evs.
Proof.
  intros Hf Hi Hs H. apply stream_ok in H as [_ [c H]]. apply stream_ok. split; [congruence|].
  eapply (lines_relax (fun x => x) (fun _ => True)); [| |exact H].
  - split; auto.
  - rewrite <- Hi. pose proof (scan_nonblank src 0 0 (opt_indent o)) as H1.
    pose proof (scan_nonblank src' 0 0 (opt_indent o)) as H2. rewrite <- Hf in H2.
    revert H1 H2. generalize (fst (scan_from 0 (opt_indent o) src)) (fst (scan_from 0 (opt_indent o) src'))
      (fst (scan_from 0 (opt_indent o) (filter nonblank src))).
    intros la lb m H1. revert lb. induction H1 as [|x y la m H0 H1 IH]; intros lb H2;
      inversion H2 as [|z ? lc ? H3 H4]; subst; constructor.
    + unfold same_line. cbn [dc_strict]. rewrite Hs.
      destruct H0 as (E1 & E2 & E3 & E4), H3 as (F1 & F2 & F3 & F4).
      rewrite E1, E2, E3, E4, F1, F2, F3, F4. repeat split. discriminate.
    + now apply IH.
Qed.

(** Strict decoding survives the removal of a blank line. *)
Lemma stream_remove a x b o evs : nonblank x = false ->
  decode_stream_sync (a ++ x :: b) o = Ok evs -> decode_stream_sync (a ++ b) o = Ok evs.
Proof.
  intros Hx H. apply stream_ok in H as [Hc [c H]]. apply stream_ok. split.
  { intros Hs. specialize (Hc Hs). unfold indent_clean in *. apply Forall_app in Hc as [H1 H2].
    apply Forall_app. split; auto. now inversion H2. }
  set (f := fun l => if Nat.leb l (length a) then l else S l).
  rewrite scan_app in H |- *. cbn [Nat.add fst snd] in *. cbn [scan_from] in H.
  destruct (scan_from (S (length a)) (opt_indent o) b) as [lb bb] eqn:Eb. rewrite Hx in H. cbn [fst snd] in H.
  pose proof (scan_shift b (length a) (opt_indent o)) as [Hl Hb]. rewrite Eb in Hl, Hb. cbn [fst snd] in Hl, Hb.
  pose proof (scan_numbers a 0 (opt_indent o)) as [Ha1 Ha2].
  pose proof (scan_numbers b (length a) (opt_indent o)) as [Hb1 Hb2].
  eapply (lines_relax f (fun _ => True)); [| |exact H].
  - split.
    { intros p q Hpq. unfold f. destruct (Nat.leb_spec p (length a)), (Nat.leb_spec q (length a)); lia. }
    right. split; [reflexivity|]. cbn [dc_blanks]. intros y Hy. left. apply in_app_iff in Hy as [Hy|Hy].
    + exists y. split; [apply in_app_iff; auto|]. rewrite Forall_forall in Ha2. apply Ha2 in Hy.
      unfold f. destruct (Nat.leb_spec (bl_line y) (length a)); lia.
    + apply In_nth_error in Hy as [i Hi]. pose proof Hi as Hi'. apply nth_error_In in Hi'.
      rewrite Forall_forall in Hb2. apply Hb2 in Hi'.
      assert (Hz : exists z, In z bb /\ bl_line z = S (bl_line y)).
      { clear -Hb Hi. revert i Hi. induction Hb; intros i Hi; [destruct i; discriminate|].
        destruct i; cbn in Hi. - injection Hi as ->. exists x. cbn; auto.
        - destruct (IHHb i Hi) as (z & Hz & E). exists z. cbn; auto. }
      destruct Hz as (z & Hz & E). exists z. split; [apply in_app_iff; cbn; auto|].
      rewrite E. unfold f. destruct (Nat.leb_spec (bl_line y) (length a)); lia.
  - apply Forall2_app.
    + clear -Ha1. cbn [Nat.add] in Ha1. induction Ha1; constructor; auto.
      unfold same_line. repeat (split; [reflexivity|]). intros _. split; [|exact I]. unfold f.
      destruct (Nat.leb_spec (pl_line x) (length a)); lia.
    + clear -Hl Hb1. revert Hb1. induction Hl; intros Hb1; inversion Hb1; subst; constructor; auto.
      destruct H as (E1 & E2 & E3 & E4 & E5). unfold same_line. repeat (split; [assumption|]). intros _. split; [|exact I].
      rewrite E5. unfold f. destruct (Nat.leb_spec (pl_line y) (length a)); lia.
Qed.

(** Blank lines at the end make no difference. *)
Lemma scan_blank xs : forall n ind, Forall (fun x => nonblank x = false) xs ->
  fst (scan_from n ind xs) = [] /\ Forall (fun b => n < bl_line b) (snd (scan_from n ind xs)).
Proof.
  induction xs as [|x xs IH]; intros n ind H; cbn [scan_from]; [split; constructor|].
  inversion H as [|? ? Hx Hxs]; subst. destruct (IH (S n) ind Hxs) as [H1 H2].
  destruct (scan_from (S n) ind xs) as [ls bs]. rewrite Hx. cbn [fst snd] in *. split; [exact H1|].
  constructor; [cbn; lia|]. eapply Forall_impl; [|exact H2]. cbn. intros; lia.
Qed.
Lemma stream_add_last src xs o evs : Forall (fun x => nonblank x = false) xs ->
  decode_stream_sync src o = Ok evs -> decode_stream_sync (src ++ xs) o = Ok evs.
Proof.
  intros Hx H. apply stream_ok in H as [Hc [c H]]. apply stream_ok. split.
  { intros Hs. specialize (Hc Hs). unfold indent_clean in *. apply Forall_app. split; [exact Hc|].
    eapply Forall_impl; [|exact Hx]. intros y Hy. cbn beta in *. congruence. }
  rewrite scan_app. destruct (scan_blank xs (0 + length src) (opt_indent o) Hx) as [E1 E2]. cbn [fst snd]. rewrite E1, app_nil_r.
  pose proof (scan_numbers src 0 (opt_indent o)) as [Ha1 Ha2].
  eapply (lines_relax (fun x => x) (fun e => e <= length src)); [| |exact H].
  - split; [auto|]. right. split; [reflexivity|]. cbn [dc_blanks]. intros b Hb. apply in_app_iff in Hb as [Hb|Hb].
    + left. exists b. auto.
    + right. intros e He. apply (proj1 (Forall_forall _ _) E2) in Hb. cbn in Hb. lia.
  - clear -Ha1. cbn [Nat.add] in Ha1. induction Ha1; constructor; auto. unfold same_line. do 4 (split; [reflexivity|]). intros _. split; [reflexivity|tauto].
Qed.
