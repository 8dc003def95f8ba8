(** The counted encoder of EncFrames.v: it gives what the encoder gives, and how far it nests. *)
From Verif Require Import Chars Floats Json Shared EncPrim Normalize Folding Encoders DecFrames EncFrames EncTotal LayEnc
  Spec SpecReplace FramesProof WrittenProps Checkers.

Local Open Scope nat_scope.

Lemma concat_same {A} (f : A -> counted (list str)) g l : (forall x, fst (f x) = g x) ->
  fst (concat_counted f l) = concat_results g l.
Proof.
  intros H. induction l as [|x l IH]; [reflexivity|]. cbn [concat_counted concat_results]. rewrite fst_andthen.
  apply bind_same; [apply H|]. intros a. rewrite fst_andthen. apply bind_same; [exact IH|reflexivity].
Qed.

Ltac same' :=
  match goal with
  | |- fst (concat_counted _ _) = _ => apply concat_same; intros
  | |- fst (call (andthen _ _)) = bind _ _ => cbn [call fst]
  | |- fst (call (match _ with _ => _ end)) = _ => cbn [call fst]
  | _ => same
  end.

Lemma enc_frames_same o : forall fuel,
  (forall l d rl pp rd, fst (object_lines_frames fuel l d o rl pp rd) = encode_object_lines fuel l d o rl pp rd) /\
  (forall k v d sibs rl pp fd, fst (pair_frames fuel k v d o sibs rl pp fd) = encode_key_value_pair_lines fuel k v d o sibs rl pp fd) /\
  (forall k l d, fst (array_lines_frames fuel k l d o) = encode_array_lines fuel k l d o) /\
  (forall v d, fst (item_value_frames fuel v d o) = encode_list_item_value_lines fuel v d o) /\
  (forall l d, fst (object_item_frames fuel l d o) = encode_object_as_list_item_lines fuel l d o).
Proof.
  induction fuel as [|fuel (I1 & I2 & I3 & I4 & I5)]; [repeat split|].
  repeat split; intros;
    cbn [object_lines_frames pair_frames array_lines_frames item_value_frames object_item_frames
         encode_object_lines encode_key_value_pair_lines encode_array_lines encode_list_item_value_lines
         encode_object_as_list_item_lines];
    cbv zeta; repeat same'.
Qed.
Lemma json_value_same v o : fst (json_value_frames v o) = encode_json_value v o.
Proof.
  unfold json_value_frames, encode_json_value. cbv zeta. destruct v; cbn [call fst]; [now destruct (is_empty _)| |]; apply enc_frames_same.
Qed.

(** * How far it nests *)
Definition inside (l : list json) : nat := list_max (map nesting l).
Definition within (l : list (str * json)) : nat := list_max (map (fun kv => nesting (snd kv)) l).
Lemma inside_in l v : In v l -> nesting v <= inside l.
Proof. intros H. apply (in_map nesting) in H. pose proof (proj1 (list_max_le (map nesting l) _) (le_n _)) as F. rewrite Forall_forall in F. now apply F. Qed.
Lemma within_in l kv : In kv l -> nesting (snd kv) <= within l.
Proof.
  intros H. apply (in_map (fun kv => nesting (snd kv))) in H.
  pose proof (proj1 (list_max_le (map (fun kv => nesting (snd kv)) l) _) (le_n _)) as F. rewrite Forall_forall in F. now apply F.
Qed.
Lemma within_cons k v l : within ((k, v) :: l) = Nat.max (nesting v) (within l).
Proof. reflexivity. Qed.
Lemma nesting_arr l : nesting (JArr l) = S (inside l).
Proof. reflexivity. Qed.
Lemma nesting_obj l : nesting (JObj l) = S (within l).
Proof. reflexivity. Qed.
Lemma chain_nesting v ks leaf : chain v ks leaf -> nesting leaf <= nesting v.
Proof. induction 1; cbn [nesting map list_max fold_right snd] in *; lia. Qed.

Lemma concat_upto {A} (f : A -> counted (list str)) l B C : C < B -> (forall x, In x l -> upto C post0 (f x)) ->
  upto B post0 (concat_counted f l).
Proof.
  intros L. induction l as [|x l IH]; intros H; [split; [cbn; lia|exact (fun _ _ => I)]|]. cbn [concat_counted].
  apply (upto_andthen _ post0); [eapply upto_call; [apply H; left; reflexivity|exact L]|]. intros a _.
  apply (upto_andthen _ post0); [apply IH; intros; apply H; now right|]. intros b _. apply upto_here. exact (fun _ _ => I).
Qed.

Ltac ego :=
  match goal with
  | |- upto _ _ (here _) => apply upto_here; exact (fun _ _ => I)
  | |- upto _ _ (andthen _ _) => apply (upto_andthen _ post0); [|intros ? _]
  | |- upto _ _ (if ?b then _ else _) => destruct b eqn:?
  | |- upto _ _ (match ?p with _ => _ end) => destruct p eqn:?
  end.

Lemma enc_bound o : forall fuel,
  (forall l d rl pp rd, upto (3 * within l + 1) post0 (object_lines_frames fuel l d o rl pp rd)) /\
  (forall k v d sibs rl pp fd, upto (3 * nesting v) post0 (pair_frames fuel k v d o sibs rl pp fd)) /\
  (forall k l d, upto (3 * inside l + 2) post0 (array_lines_frames fuel k l d o)) /\
  (forall v d, upto (3 * nesting v) post0 (item_value_frames fuel v d o)) /\
  (forall l d, upto (3 * within l + 2) post0 (object_item_frames fuel l d o)).
Proof.
  induction fuel as [|fuel (I1 & I2 & I3 & I4 & I5)]; [repeat split; intros; cbn; try lia; exact I|].
  split; [|split; [|split; [|split]]]; intros;
    cbn [object_lines_frames pair_frames array_lines_frames item_value_frames object_item_frames]; cbv zeta.
  - eapply (concat_upto _ _ _ (3 * within l)); [lia|]. intros kv Hi. eapply upto_le; [apply I2|].
    apply within_in in Hi. lia.
  - destruct (try_fold_key_chain k v sibs o rl pp fd) as [fr|] eqn:Ef.
    + apply fold_chain in Ef as ((ks & Hc) & Hr). apply chain_nesting in Hc.
      destruct (fr_remainder fr) as [rem|].
      * destruct Hr as [Hr|Hr]; [discriminate|]. injection Hr as ->.
        repeat ego; (eapply upto_call; [first [apply I1|apply I3]|]); subst;
          repeat match goal with H : fr_leaf fr = _ |- _ => rewrite H in * end; rewrite ?nesting_arr, ?nesting_obj in *; lia.
      * repeat ego; (eapply upto_call; [first [apply I1|apply I3]|]); subst;
          repeat match goal with H : fr_leaf fr = _ |- _ => rewrite H in * end; rewrite ?nesting_arr, ?nesting_obj in *; lia.
    + repeat ego; (eapply upto_call; [first [apply I1|apply I3]|]); rewrite ?nesting_arr, ?nesting_obj in *; lia.
  - repeat ego; (eapply upto_call with (C := 3 * inside l + 1); [|lia]); repeat ego;
      (eapply (concat_upto _ _ _ (3 * inside l)); [lia|]; intros x Hi; eapply upto_le; [apply I4|]; apply inside_in in Hi; lia).
  - destruct v as [p|l|l]; repeat ego.
    + eapply (concat_upto _ _ _ (3 * inside l)); [cbn [nesting]; fold (inside l); lia|]; intros x Hi; eapply upto_le; [apply I4|].
      apply inside_in in Hi; lia.
    + eapply upto_call; [apply I5|]. cbn [nesting]. fold (within l). lia.
  - destruct l as [|[k v] rest]; [repeat ego|]. rewrite within_cons.
    apply (upto_andthen _ post0); [|intros head _; apply (upto_andthen _ post0);
      [destruct (is_empty rest); [repeat ego|]; eapply upto_call; [apply I1|]; lia|intros; apply upto_here; exact (fun _ _ => I)]].
    destruct v as [p|l|l]; [repeat ego| |].
    + repeat ego. cbn [nesting]. fold (inside l).
      eapply (concat_upto _ _ _ (3 * inside l)); [lia|]; intros x Hi; eapply upto_le; [apply I4|]. apply inside_in in Hi; lia.
    + repeat ego. cbn [nesting]. fold (within l). eapply upto_call; [apply I1|]. lia.
Qed.
Lemma json_value_bound v o : snd (json_value_frames v o) <= 3 * nesting v + 1.
Proof.
  unfold json_value_frames. cbv zeta. destruct v as [p|l|l]; cbn [call snd].
  - destruct (is_empty _); cbn; lia.
  - destruct (enc_bound o (enc_fuel (JArr l))) as (_ & _ & I3 & _). destruct (I3 None l 0) as [L _]. cbn [nesting]. fold (inside l). lia.
  - destruct (enc_bound o (enc_fuel (JObj l))) as (I1 & _). destruct (I1 l 0 None None None) as [L _]. cbn [nesting]. fold (within l). lia.
Qed.

(** * How far it must nest, when no keys are folded *)
Definition atleast {A} (n : nat) (m : counted A) : Prop := forall a, fst m = Ok a -> n <= snd m.
Lemma atleast_0 {A} (m : counted A) : atleast 0 m.
Proof. intros a _. lia. Qed.
Lemma atleast_le {A} n k (m : counted A) : atleast k m -> n <= k -> atleast n m.
Proof. intros H L a E. specialize (H a E). lia. Qed.
Lemma atleast_call {A} n (m : counted A) : atleast (n - 1) m -> atleast n (call m).
Proof. intros H a E. specialize (H a E). cbn [call snd]. lia. Qed.
Lemma atleast_first {A B} n (m : counted A) (f : A -> counted B) : atleast n m -> atleast n (andthen m f).
Proof.
  intros H b E. rewrite fst_andthen in E. unfold andthen. destruct (fst m) as [a|] eqn:Em; [|discriminate].
  specialize (H a Em). cbn [snd]. lia.
Qed.
Lemma atleast_second {A B} n (m : counted A) (f : A -> counted B) : (forall a, atleast n (f a)) -> atleast n (andthen m f).
Proof.
  intros H b E. rewrite fst_andthen in E. unfold andthen. destruct (fst m) as [a|] eqn:Em; [|discriminate].
  cbn [bind] in E. specialize (H a b E). cbn [snd]. lia.
Qed.
Lemma concat_atleast {A} (f : A -> counted (list str)) l (g : A -> nat) : (forall x, In x l -> atleast (g x - 1) (f x)) ->
  atleast (list_max (map g l)) (concat_counted f l).
Proof.
  induction l as [|x l IH]; intros H; [apply atleast_0|]. cbn [concat_counted map].
  change (list_max (g x :: map g l)) with (Nat.max (g x) (list_max (map g l))).
  destruct (Nat.max_dec (g x) (list_max (map g l))) as [->| ->].
  - apply atleast_first, atleast_call, H. now left.
  - apply atleast_second. intros a. apply atleast_first. apply IH. intros; apply H; now right.
Qed.
Lemma concat_minus {A} (f : A -> counted (list str)) l (g : A -> nat) n : (forall x, In x l -> atleast (g x - S n) (f x)) ->
  atleast (list_max (map g l) - n) (concat_counted f l).
Proof.
  intros H. eapply atleast_le; [apply concat_atleast with (g := fun x => g x - n)|].
  - intros x Hi. eapply atleast_le; [now apply H|lia].
  - clear. induction l as [|x l IH]; [cbn; lia|]. cbn [map]. 
    change (list_max (?a :: ?b)) with (Nat.max a (list_max b)). unfold list_max in *. cbn [fold_right]. lia.
Qed.

Lemma flat_inside l : is_array_of_primitives l = true -> inside l = 0.
Proof.
  unfold is_array_of_primitives, inside. rewrite forallb_forall. intros H. apply Nat.le_0_r, list_max_le, Forall_map, Forall_forall.
  intros x Hi. apply H in Hi. destruct x; [cbn; lia|discriminate|discriminate].
Qed.
Lemma lists_inside l : forallb (fun item => match item with JArr items => is_array_of_primitives items | _ => false end) l = true ->
  inside l <= 1.
Proof.
  rewrite forallb_forall. intros H. apply list_max_le, Forall_map, Forall_forall. intros x Hi. apply H in Hi.
  destruct x as [p|m|m]; try discriminate. rewrite nesting_arr, flat_inside; auto.
Qed.
Lemma table_inside l header : Forall distinct_keys l -> extract_tabular_header l = Some header -> inside l <= 1.
Proof.
  intros Hd H. apply table_ok, tabular_flat in H; [|exact Hd]. rewrite forallb_forall in H.
  apply list_max_le, Forall_map, Forall_forall. intros x Hi. apply H in Hi. destruct x as [p|m|m]; [discriminate|discriminate|].
  rewrite nesting_obj. enough (within m <= 0) by lia. apply list_max_le, Forall_map, Forall_forall. intros [k v] Hk.
  cbn in Hi. rewrite forallb_forall in Hi. apply Hi in Hk. cbn in *. destruct v; [cbn; lia|discriminate|discriminate].
Qed.
Lemma empty_within l : is_empty l = true -> within l = 0.
Proof. destruct l; [reflexivity|discriminate]. Qed.
Lemma empty_inside l : is_empty l = true -> inside l = 0.
Proof. destruct l; [reflexivity|discriminate]. Qed.
Lemma atleast_none {A} n (m : counted A) : n = 0 -> atleast n m.
Proof. intros ->. apply atleast_0. Qed.

Lemma enc_need o : ro_key_folding o = KFOff -> forall fuel,
  (forall l d rl pp rd, Forall (fun kv => distinct_keys (snd kv)) l -> atleast (within l) (object_lines_frames fuel l d o rl pp rd)) /\
  (forall k v d sibs rl pp fd, distinct_keys v -> atleast (nesting v - 1) (pair_frames fuel k v d o sibs rl pp fd)) /\
  (forall k l d, Forall distinct_keys l -> atleast (inside l - 1) (array_lines_frames fuel k l d o)) /\
  (forall v d, distinct_keys v -> atleast (nesting v - 2) (item_value_frames fuel v d o)) /\
  (forall l d, Forall (fun kv => distinct_keys (snd kv)) l -> atleast (within l - 2) (object_item_frames fuel l d o)).
Proof.
  intros Hoff. induction fuel as [|fuel (I1 & I2 & I3 & I4 & I5)]; [repeat split; intros; intros a E; discriminate E|].
  split; [|split; [|split; [|split]]]; intros;
    cbn [object_lines_frames pair_frames array_lines_frames item_value_frames object_item_frames]; cbv zeta.
  - apply concat_atleast. intros kv Hi. rewrite Forall_forall in H. auto.
  - rewrite (no_fold o Hoff). destruct v as [p|l|l]; [apply atleast_none; reflexivity| |]; inversion H; subst.
    + apply atleast_call. rewrite nesting_arr. eapply atleast_le; [apply I3; assumption|lia].
    + rewrite nesting_obj. destruct (is_empty l) eqn:E; [apply atleast_none; rewrite (empty_within l E); lia|].
      apply atleast_first, atleast_call. eapply atleast_le; [apply I1; assumption|lia].
  - assert (M : atleast (inside l - 1) (call (let! rest := concat_counted (fun item => item_value_frames fuel item (S d) o) l in
        here (Ok (indented_line d (format_header (length l) k None (ro_delimiter o)) (ro_indent o) :: rest))))).
    { apply atleast_call, atleast_first. eapply atleast_le; [apply (concat_minus _ _ nesting 1)|unfold inside; lia].
      intros x Hi. rewrite Forall_forall in H. auto. }
    destruct (is_empty l) eqn:E; [apply atleast_none; rewrite (empty_inside l E); lia|].
    destruct (is_array_of_primitives l) eqn:Ep; [apply atleast_none; rewrite (flat_inside l Ep); lia|].
    destruct (is_array_of_arrays l && _) eqn:Ea.
    { apply andb_prop in Ea as [_ Ea]. apply atleast_none. apply lists_inside in Ea. lia. }
    destruct (is_array_of_objects l); [|exact M]. destruct (extract_tabular_header l) eqn:Et; [|exact M].
    apply atleast_none. apply table_inside in Et; [lia|exact H].
  - destruct v as [p|l|l]; [apply atleast_none; reflexivity| |]; inversion H; subst.
    + rewrite nesting_arr. destruct (is_array_of_primitives l) eqn:Ep; [apply atleast_none; rewrite (flat_inside l Ep); lia|].
      apply atleast_first. eapply atleast_le; [apply (concat_minus _ _ nesting 1)|unfold inside; lia].
      intros x Hi. rewrite Forall_forall in H1. auto.
    + rewrite nesting_obj. apply atleast_call. eapply atleast_le; [apply I5; assumption|lia].
  - destruct l as [|[k v] rest]; [apply atleast_none; reflexivity|]. rewrite within_cons. inversion H as [|? ? Hv Hr]; subst. cbn [snd] in Hv.
    destruct (Nat.max_dec (nesting v) (within rest)) as [-> | ->].
    + apply atleast_first. destruct v as [p|l|l]; [apply atleast_none; reflexivity| |]; inversion Hv; subst.
      * rewrite nesting_arr. destruct (if is_array_of_objects l then extract_tabular_header l else None) as [h|] eqn:Et.
        -- destruct (is_array_of_objects l); [|discriminate]. apply table_inside in Et; [|assumption]. apply atleast_none. lia.
        -- destruct (is_empty l) eqn:E; [apply atleast_none; rewrite (empty_inside l E); lia|].
           destruct (is_array_of_primitives l) eqn:Ep; [apply atleast_none; rewrite (flat_inside l Ep); lia|].
           apply atleast_first. eapply atleast_le; [apply (concat_minus _ _ nesting 1)|unfold inside; lia].
           intros x Hi. rewrite Forall_forall in H1. auto.
      * rewrite nesting_obj. destruct (is_empty l) eqn:E; [apply atleast_none; rewrite (empty_within l E); lia|].
        apply atleast_first, atleast_call. eapply atleast_le; [apply I1; assumption|lia].
    + apply atleast_second. intros a. apply atleast_first. destruct (is_empty rest) eqn:E; [apply atleast_none; rewrite (empty_within rest E); lia|].
      apply atleast_call. eapply atleast_le; [apply I1; assumption|lia].
Qed.
Lemma json_value_need v o : ro_key_folding o = KFOff -> distinct_keys v -> nesting v <= snd (json_value_frames v o).
Proof.
  intros Hoff Hd. destruct (encode_json_value_total v o) as [ls E]. rewrite <- json_value_same in E.
  unfold json_value_frames in *. cbv zeta in *. destruct v as [p|l|l]; cbn [call fst snd] in *.
  - cbn. lia.
  - destruct (enc_need o Hoff (enc_fuel (JArr l))) as (_ & _ & I3 & _). inversion Hd; subst.
    specialize (I3 None l 0 ltac:(assumption) ls E). rewrite nesting_arr. lia.
  - destruct (enc_need o Hoff (enc_fuel (JObj l))) as (I1 & _). inversion Hd; subst.
    specialize (I1 l 0 None None None ltac:(assumption) ls E). rewrite nesting_obj. lia.
Qed.
