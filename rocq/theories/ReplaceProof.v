(** Proofs about the replacer. *)
From Verif Require Import Chars Floats Json JsonInd JsonEq Shared EncPrim Normalize Folding Encoders Replacer Spec SpecReplace NumProof PrimProof.

Local Open Scope nat_scope.

Lemma norm_prim_fun p q r : norm_prim p q -> norm_prim p r -> q = r.
Proof.
  intros A B. inversion A as [? J|x F|x Z]; subst; inversion B as [? J'|x' F'|x' Z']; subst; auto;
    cbn in *; unfold json_number in *; try (destruct J; congruence); try (destruct J'; congruence);
    unfold f64_is_finite in *; try rewrite Z in *; try rewrite Z' in *; try discriminate; try congruence.
Qed.
Lemma norm_fun v : forall a b, norm_json v a -> norm_json v b -> a = b.
Proof.
  induction v using json_ind'; intros a b A B; inversion A as [? ? PA|? ? FA|? ? FA]; inversion B as [? ? PB|? ? FB|? ? FB];
    subst; f_equal.
  - eapply norm_prim_fun; eauto.
  - clear A B. revert m0 FB. induction FA; intros m0 FB; inversion FB; subst; auto. inversion H; subst. f_equal; auto.
  - clear A B. revert m0 FB. induction FA as [|x y l m [E R] F IH]; intros m0 FB; inversion FB as [|? z ? ? [E' R']]; subst; auto.
    inversion H; subst. f_equal; auto. destruct y, z; cbn in *. f_equal; [congruence|]. eauto.
Qed.
Lemma norm_is v n : norm_json v n -> n = normalize_json_value v.
Proof. intros H. eapply norm_fun; eauto using normalize_spec. Qed.

Lemma items_cons rec rep path i v l : transform_items rec rep path i (v :: l) =
  match rep (dec_of_N (N.of_nat i)) v (path ++ [PSIndex i]) with
  | None => transform_items rec rep path (S i) l
  | Some x => match rec (normalize_json_value x) (path ++ [PSIndex i]) with
              | None => None
              | Some t => option_map (cons t) (transform_items rec rep path (S i) l)
              end
  end.
Proof. reflexivity. Qed.
Lemma entries_cons rec rep path k v l : transform_entries rec rep path ((k, v) :: l) =
  match rep k v (path ++ [PSKey k]) with
  | None => transform_entries rec rep path l
  | Some x => match rec (normalize_json_value x) (path ++ [PSKey k]) with
              | None => None
              | Some t => option_map (cons (k, t)) (transform_entries rec rep path l)
              end
  end.
Proof. reflexivity. Qed.

(** ** The model follows the specification *)

Lemma transform_sound rep fuel : forall v path w,
  transform_children fuel rep v path = Some w -> replaced rep path v w.
Proof.
  induction fuel as [|fuel IH]; intros v path w; cbn [transform_children]; [discriminate|].
  destruct v as [p|l|l].
  - intros E. injection E as <-. constructor.
  - destruct (transform_items _ _ _ _ _) as [m|] eqn:E; cbn; [|discriminate]. intros H. injection H as <-. constructor.
    revert m E. generalize 0. induction l as [|v l IHl]; intros i m E; [|rewrite items_cons in E].
    + injection E as <-. constructor.
    + destruct (rep _ _ _) as [x|] eqn:Er; [|eapply rpi_drop; eauto].
      destruct (transform_children _ _ _ _) as [t|] eqn:Et; [|discriminate].
      destruct (transform_items _ _ _ _ l) as [m'|] eqn:El; [|discriminate]. cbn in E. injection E as <-.
      eapply rpi_keep; eauto using normalize_spec.
  - destruct (transform_entries _ _ _ _) as [m|] eqn:E; cbn; [|discriminate]. intros H. injection H as <-. constructor.
    revert m E. induction l as [|[k v] l IHl]; intros m E; [|rewrite entries_cons in E].
    + injection E as <-. constructor.
    + destruct (rep _ _ _) as [x|] eqn:Er; [|eapply rpm_drop; eauto].
      destruct (transform_children _ _ _ _) as [t|] eqn:Et; [|discriminate].
      destruct (transform_entries _ _ _ l) as [m'|] eqn:El; [|discriminate]. cbn in E. injection E as <-.
      eapply rpm_keep; eauto using normalize_spec.
Qed.

Lemma transform_complete rep :
  (forall path v w, replaced rep path v w ->
     exists n, forall fuel, n <= fuel -> transform_children fuel rep v path = Some w) /\
  (forall path i l m, replaced_items rep path i l m ->
     exists n, forall fuel, n <= fuel -> transform_items (transform_children fuel rep) rep path i l = Some m) /\
  (forall path l m, replaced_members rep path l m ->
     exists n, forall fuel, n <= fuel -> transform_entries (transform_children fuel rep) rep path l = Some m).
Proof.
  apply replaced_mutind.
  - intros path p. exists 1. intros [|f] Hf; [lia|reflexivity].
  - intros path l m _ [n H]. exists (S n). intros [|f] Hf; [lia|]. cbn [transform_children]. rewrite H by lia. reflexivity.
  - intros path l m _ [n H]. exists (S n). intros [|f] Hf; [lia|]. cbn [transform_children]. rewrite H by lia. reflexivity.
  - intros path i. exists 0. reflexivity.
  - intros path i v l m Er _ [n H]. exists n. intros f Hf. rewrite items_cons, Er. auto.
  - intros path i v x nx w l m Er Hn _ [n1 H1] _ [n2 H2]. exists (n1 + n2). intros f Hf. rewrite items_cons, Er.
    rewrite <- (norm_is _ _ Hn), H1, H2 by lia. reflexivity.
  - intros path. exists 0. reflexivity.
  - intros path k v l m Er _ [n H]. exists n. intros f Hf. rewrite entries_cons, Er. auto.
  - intros path k v x nx w l m Er Hn _ [n1 H1] _ [n2 H2]. exists (n1 + n2). intros f Hf. rewrite entries_cons, Er.
    rewrite <- (norm_is _ _ Hn), H1, H2 by lia. reflexivity.
Qed.

Lemma transform_mono rep fuel : forall v path w fuel', fuel <= fuel' ->
  transform_children fuel rep v path = Some w -> transform_children fuel' rep v path = Some w.
Proof.
  induction fuel as [|fuel IH]; intros v path w fuel' Hf; cbn [transform_children]; [discriminate|].
  destruct fuel' as [|fuel']; [lia|]. cbn [transform_children]. destruct v as [p|l|l]; auto.
  - destruct (transform_items _ _ _ _ l) as [m|] eqn:E; cbn; [|discriminate]. intros H.
    enough (transform_items (transform_children fuel' rep) rep path 0 l = Some m) as -> by auto.
    clear H. revert m E. generalize 0. induction l as [|v l IHl]; intros i m E; auto. rewrite items_cons in *.
    destruct (rep _ _ _) as [x|]; auto. destruct (transform_children fuel _ _ _) as [t|] eqn:Et; [|discriminate].
    rewrite (IH _ _ _ fuel') with (2 := Et) by lia.
    destruct (transform_items _ _ _ _ l) as [m'|] eqn:El; [|discriminate]. now rewrite (IHl _ _ El).
  - destruct (transform_entries _ _ _ l) as [m|] eqn:E; cbn; [|discriminate]. intros H.
    enough (transform_entries (transform_children fuel' rep) rep path l = Some m) as -> by auto.
    clear H. revert m E. induction l as [|[k v] l IHl]; intros m E; auto. rewrite entries_cons in *.
    destruct (rep _ _ _) as [x|]; auto. destruct (transform_children fuel _ _ _) as [t|] eqn:Et; [|discriminate].
    rewrite (IH _ _ _ fuel') with (2 := Et) by lia.
    destruct (transform_entries _ _ _ l) as [m'|] eqn:El; [|discriminate]. now rewrite (IHl _ eq_refl).
Qed.

Lemma transform_items_mono rep fuel fuel' path l i m : fuel <= fuel' ->
  transform_items (transform_children fuel rep) rep path i l = Some m ->
  transform_items (transform_children fuel' rep) rep path i l = Some m.
Proof.
  intros Hf. revert i m. induction l as [|v l IHl]; intros i m E; auto. rewrite items_cons in *.
  destruct (rep _ _ _) as [x|]; auto. destruct (transform_children fuel _ _ _) as [t|] eqn:Et; [|discriminate].
  rewrite (transform_mono _ _ _ _ _ fuel' Hf Et).
  destruct (transform_items _ _ _ _ l) as [m'|] eqn:El; [|discriminate]. now rewrite (IHl _ _ El).
Qed.
Lemma transform_entries_mono rep fuel fuel' path l m : fuel <= fuel' ->
  transform_entries (transform_children fuel rep) rep path l = Some m ->
  transform_entries (transform_children fuel' rep) rep path l = Some m.
Proof.
  intros Hf. revert m. induction l as [|[k v] l IHl]; intros m E; auto. rewrite entries_cons in *.
  destruct (rep _ _ _) as [x|]; auto. destruct (transform_children fuel _ _ _) as [t|] eqn:Et; [|discriminate].
  rewrite (transform_mono _ _ _ _ _ fuel' Hf Et).
  destruct (transform_entries _ _ _ l) as [m'|] eqn:El; [|discriminate]. now rewrite (IHl _ eq_refl).
Qed.

Lemma apply_mono rep fuel fuel' v w : fuel <= fuel' -> apply_replacer fuel v rep = Some w -> apply_replacer fuel' v rep = Some w.
Proof. unfold apply_replacer. intros Hf. destruct (rep _ _ _); eauto using transform_mono. Qed.

Lemma apply_sound rep fuel v w : apply_replacer fuel v rep = Some w -> replaced_root rep v w.
Proof.
  unfold apply_replacer. destruct (rep _ _ _) as [x|] eqn:E; intros H.
  - eapply rr_new; eauto using normalize_spec, transform_sound.
  - eapply rr_keep; eauto using transform_sound.
Qed.
Lemma apply_complete rep v w : replaced_root rep v w ->
  exists n, forall fuel, n <= fuel -> apply_replacer fuel v rep = Some w.
Proof.
  intros H. unfold apply_replacer. inversion H as [? ? E R|? x n ? E Hn R]; subst; rewrite E.
  - now apply (proj1 (transform_complete rep)).
  - rewrite <- (norm_is _ _ Hn). now apply (proj1 (transform_complete rep)).
Qed.

(** ** Results are normalised *)

Lemma replaced_canonical rep :
  (forall path v w, replaced rep path v w -> canonical v -> canonical w) /\
  (forall path i l m, replaced_items rep path i l m -> Forall canonical l -> Forall canonical m) /\
  (forall path l m, replaced_members rep path l m -> Forall (fun kv => canonical (snd kv)) l -> Forall (fun kv => canonical (snd kv)) m).
Proof.
  apply replaced_mutind; intros; auto.
  - inversion H1; constructor; auto.
  - inversion H1; constructor; auto.
  - inversion H2; auto.
  - inversion H5; subst. constructor; eauto using norm_canonical.
  - inversion H2; auto.
  - inversion H5; subst. constructor; eauto using norm_canonical.
Qed.
Lemma root_canonical rep v w : replaced_root rep v w -> canonical v -> canonical w.
Proof.
  intros H Hc. inversion H; subst; eapply (proj1 (replaced_canonical rep)); eauto using norm_canonical.
Qed.

(** ** Keys stay distinct *)

Lemma members_keys rep path l m : replaced_members rep path l m -> forall k, In k (map fst m) -> In k (map fst l).
Proof.
  revert m. induction l as [|[k v] l IH]; intros m H; inversion H; subst; cbn; auto; intros k' Hk.
  - right; eauto.
  - destruct Hk as [->|Hk]; eauto.
Qed.

(** ** Laws *)

Lemma replaced_identity (rep : replacer) : (forall k v p, rep k v p = Some v) -> forall v path, canonical v -> replaced rep path v v.
Proof.
  intros Hid. induction v using json_ind'; intros path Hc; inversion Hc as [|? C|? C]; subst; constructor.
  - clear Hc. generalize 0. revert C. induction H as [|x l Hx Hl IH]; intros C i; [constructor|]. inversion C; subst.
    eapply rpi_keep with (n := x); auto. rewrite <- (normalize_canonical x) at 2 by auto. apply normalize_spec.
  - clear Hc. revert C. induction H as [|[k x] l Hx Hl IH]; intros C; [constructor|]. inversion C; subst. cbn [snd] in *.
    eapply rpm_keep with (n := x); auto. rewrite <- (normalize_canonical x) at 2 by auto. apply normalize_spec.
Qed.

Lemma replaced_prune (rep : replacer) (keep : list path_segment -> bool) : (forall k v p, rep k v p = if keep p then Some v else None) ->
  forall v path, canonical v -> replaced rep path v (prune keep path v).
Proof.
  intros Hid. induction v using json_ind'; intros path Hc; inversion Hc as [|? C|? C]; subst; cbn [prune]; constructor.
  - clear Hc. generalize 0. revert C. induction H as [|x l Hx Hl IH]; intros C i; [constructor|]. inversion C; subst.
    destruct (keep (path ++ [PSIndex i])) eqn:E.
    + eapply rpi_keep with (x := x) (n := x); auto; [now rewrite Hid, E|].
      rewrite <- (normalize_canonical x) at 2 by auto. apply normalize_spec.
    + apply rpi_drop; auto. now rewrite Hid, E.
  - clear Hc. revert C. induction H as [|[k x] l Hx Hl IH]; intros C; [constructor|]. inversion C; subst. cbn [snd] in *.
    destruct (keep (path ++ [PSKey k])) eqn:E.
    + eapply rpm_keep with (x := x) (n := x); auto; [now rewrite Hid, E|].
      rewrite <- (normalize_canonical x) at 2 by auto. apply normalize_spec.
    + apply rpm_drop; auto. now rewrite Hid, E.
Qed.

Lemma replaced_leaves (rep : replacer) f : (forall k p path, rep k (JPrim p) path = Some (JPrim (f p))) ->
  (forall k v path, (forall p, v <> JPrim p) -> rep k v path = Some v) ->
  forall v path, canonical v -> (forall p, v <> JPrim p) -> replaced rep path v (normalize_json_value (map_leaves f v)).
Proof.
  intros Hp Hc. induction v using json_ind'; intros path C Hv; [now destruct (Hv p)| |]; inversion C as [|? C'|? C']; subst;
    cbn [map_leaves normalize_json_value]; constructor.
  - clear C Hv. generalize 0. revert C'. induction H as [|x l Hx Hl IH]; intros C' i; [constructor|]. inversion C' as [|? ? Cx]; subst.
    cbn [map]. destruct x as [p| |] eqn:Ex.
    + eapply rpi_keep; [apply Hp|apply normalize_spec| |auto]. cbn. constructor.
    + rewrite <- Ex in *. eapply rpi_keep with (n := x); [apply Hc; subst; discriminate| | |auto].
      * rewrite <- (normalize_canonical x) at 2 by auto. apply normalize_spec.
      * apply Hx; auto. subst; discriminate.
    + rewrite <- Ex in *. eapply rpi_keep with (n := x); [apply Hc; subst; discriminate| | |auto].
      * rewrite <- (normalize_canonical x) at 2 by auto. apply normalize_spec.
      * apply Hx; auto. subst; discriminate.
  - clear C Hv. revert C'. induction H as [|[k x] l Hx Hl IH]; intros C'; [constructor|]. inversion C' as [|? ? Cx]; subst.
    cbn [map fst snd] in *. destruct x as [p| |] eqn:Ex.
    + eapply rpm_keep; [apply Hp|apply normalize_spec| |auto]. cbn. constructor.
    + rewrite <- Ex in *. eapply rpm_keep with (n := x); [apply Hc; subst; discriminate| | |auto].
      * rewrite <- (normalize_canonical x) at 2 by auto. apply normalize_spec.
      * apply Hx; auto. subst; discriminate.
    + rewrite <- Ex in *. eapply rpm_keep with (n := x); [apply Hc; subst; discriminate| | |auto].
      * rewrite <- (normalize_canonical x) at 2 by auto. apply normalize_spec.
      * apply Hx; auto. subst; discriminate.
Qed.

(** ** Termination *)

(** A well-founded rank that drops from each value to its replaced children bounds the recursion. *)
Lemma transform_ranked (A : Type) (R : A -> A -> Prop) (rep : replacer) (rank : list path_segment -> json -> A) :
  well_founded R ->
  (forall path v k s c x, child v k s c -> rep k c (path ++ [s]) = Some x ->
     R (rank (path ++ [s]) (normalize_json_value x)) (rank path v)) ->
  forall path v, exists n w, transform_children n rep v path = Some w.
Proof.
  intros Hw Hr path v. remember (rank path v) as a eqn:Ha. revert path v Ha.
  induction (Hw a) as [a _ IH]; intros path v ->. destruct v as [p|l|l]; [exists 1; cbn; eauto| |].
  - assert (H : forall l' i, (forall j c, nth_error l' j = Some c -> nth_error l (i + j) = Some c) ->
              exists n m, transform_items (transform_children n rep) rep path i l' = Some m).
    { induction l' as [|v l' IHl]; intros i Hl; [exists 0; cbn; eauto|].
      destruct (IHl (S i)) as (n & m & Em). { intros j c Hj. specialize (Hl (S j) c Hj). now rewrite Nat.add_succ_r in Hl. }
      destruct (rep (dec_of_N (N.of_nat i)) v (path ++ [PSIndex i])) as [x|] eqn:Ex;
        [|exists n, m; now rewrite items_cons, Ex].
      specialize (Hr path (JArr l) _ _ v x (ch_arr l i v ltac:(specialize (Hl 0 v eq_refl); now rewrite Nat.add_0_r in Hl)) Ex).
      destruct (IH _ Hr _ _ eq_refl) as (n' & w & Ew).
      assert (Em' : transform_items (transform_children (n + n') rep) rep path (S i) l' = Some m).
      { pose proof (transform_items_mono rep n (n + n') path l' (S i) m ltac:(lia) Em). auto. }
      exists (n + n'). rewrite items_cons, Ex, Em'. rewrite (transform_mono rep n' _ _ _ (n + n') ltac:(lia) Ew). cbn. eauto. }
    destruct (H l 0) as (n & m & E); [auto|]. exists (S n). cbn [transform_children]. rewrite E. cbn. eauto.
  - assert (H : forall l', (forall c, In c l' -> In c l) ->
              exists n m, transform_entries (transform_children n rep) rep path l' = Some m).
    { induction l' as [|[k v] l' IHl]; intros Hl; [exists 0; cbn; eauto|].
      destruct IHl as (n & m & Em). { intros c Hc. apply Hl. now right. }
      destruct (rep k v (path ++ [PSKey k])) as [x|] eqn:Ex; [|exists n, m; now rewrite entries_cons, Ex].
      specialize (Hr path (JObj l) _ _ v x (ch_obj l k v ltac:(apply Hl; now left)) Ex).
      destruct (IH _ Hr _ _ eq_refl) as (n' & w & Ew).
      assert (Em' : transform_entries (transform_children (n + n') rep) rep path l' = Some m).
      { pose proof (transform_entries_mono rep n (n + n') path l' m ltac:(lia) Em). auto. }
      exists (n + n'). rewrite entries_cons, Ex, Em'. rewrite (transform_mono rep n' _ _ _ (n + n') ltac:(lia) Ew). cbn. eauto. }
    destruct (H l) as (n & m & E); [auto|]. exists (S n). cbn [transform_children]. rewrite E. cbn. eauto.
Qed.

Lemma norm_nesting v : nesting (normalize_json_value v) = nesting v.
Proof.
  induction v using json_ind'; cbn [normalize_json_value nesting]; auto; do 2 f_equal; rewrite map_map;
    apply map_ext_in; intros a Ha; rewrite Forall_forall in H; cbn; auto.
Qed.
Lemma In_list_max n l : In n l -> n <= list_max l.
Proof. intros H. pose proof (proj1 (list_max_le l (list_max l)) (le_n _)) as F. rewrite Forall_forall in F. auto. Qed.
Lemma child_nesting v k s c : child v k s c -> nesting c < nesting v.
Proof.
  intros [l i x H|l k' x H]; cbn [nesting].
  - apply nth_error_In in H. apply (in_map nesting) in H. apply In_list_max in H. lia.
  - apply (in_map (fun kv => nesting (snd kv))) in H. apply In_list_max in H. cbn in H. lia.
Qed.

Lemma apply_ranked (A : Type) (R : A -> A -> Prop) (rep : replacer) (rank : list path_segment -> json -> A) v :
  well_founded R ->
  (forall path v k s c x, child v k s c -> rep k c (path ++ [s]) = Some x ->
     R (rank (path ++ [s]) (normalize_json_value x)) (rank path v)) ->
  exists fuel w, apply_replacer fuel v rep = Some w.
Proof.
  intros Hw Hr. unfold apply_replacer. destruct (rep [] v []) as [x|]; eapply transform_ranked; eauto.
Qed.

(** ** The encoder itself does not look at the replacer *)

Section NoReplacer.
Context (i : nat) (d : char) (kf : key_folding_mode) (fd : N) (r r' : option replacer).
Let o := REncOpts i d kf fd r.
Let o' := REncOpts i d kf fd r'.

Lemma concat_ext {A} (f g : A -> result (list str)) l : (forall x, f x = g x) -> concat_results f l = concat_results g l.
Proof. intros H. induction l as [|x l IH]; cbn; auto. rewrite H. destruct (g x); cbn; auto. now rewrite IH. Qed.
Lemma rows_same rows header depth : write_tabular_rows_lines rows header depth o = write_tabular_rows_lines rows header depth o'.
Proof.
  induction rows as [|v rows IH]; cbn [write_tabular_rows_lines]; auto. destruct v; auto.
  destruct (row_cells _ _); cbn [bind]; auto. now rewrite IH.
Qed.
Lemma table_same key rows header depth :
  encode_array_of_objects_as_tabular_lines key rows header depth o = encode_array_of_objects_as_tabular_lines key rows header depth o'.
Proof. unfold encode_array_of_objects_as_tabular_lines. rewrite rows_same. reflexivity. Qed.
Lemma fold_same key value sibs lits prefix n :
  try_fold_key_chain key value sibs o lits prefix n = try_fold_key_chain key value sibs o' lits prefix n.
Proof. reflexivity. Qed.
Lemma encode_same fuel :
  (forall v depth lits prefix n, encode_object_lines fuel v depth o lits prefix n = encode_object_lines fuel v depth o' lits prefix n) /\
  (forall k v depth sibs lits prefix n, encode_key_value_pair_lines fuel k v depth o sibs lits prefix n
     = encode_key_value_pair_lines fuel k v depth o' sibs lits prefix n) /\
  (forall k v depth, encode_array_lines fuel k v depth o = encode_array_lines fuel k v depth o') /\
  (forall v depth, encode_list_item_value_lines fuel v depth o = encode_list_item_value_lines fuel v depth o') /\
  (forall v depth, encode_object_as_list_item_lines fuel v depth o = encode_object_as_list_item_lines fuel v depth o').
Proof.
  induction fuel as [|fuel (I1 & I2 & I3 & I4 & I5)]; [repeat split; reflexivity|].
  split; [|split; [|split; [|split]]].
  - intros v depth lits prefix n. cbn [encode_object_lines]. apply concat_ext. intros x. rewrite I2. reflexivity.
  - intros k v depth sibs lits prefix n. cbn [encode_key_value_pair_lines]. rewrite fold_same.
    assert (P : match v with
        | JPrim p => Ok [indented_key_value_line depth (encode_key k) (encode_primitive p (ro_delimiter o)) (ro_indent o)]
        | JArr items => encode_array_lines fuel (Some k) items depth o
        | JObj entries =>
            if is_empty entries then Ok [indented_key_colon_line depth (encode_key k) (ro_indent o)]
            else
              let? rest := encode_object_lines fuel entries (S depth) o lits (Some (path_join prefix k)) (Some n) in
              Ok (indented_key_colon_line depth (encode_key k) (ro_indent o) :: rest)
        end = match v with
        | JPrim p => Ok [indented_key_value_line depth (encode_key k) (encode_primitive p (ro_delimiter o')) (ro_indent o')]
        | JArr items => encode_array_lines fuel (Some k) items depth o'
        | JObj entries =>
            if is_empty entries then Ok [indented_key_colon_line depth (encode_key k) (ro_indent o')]
            else
              let? rest := encode_object_lines fuel entries (S depth) o' lits (Some (path_join prefix k)) (Some n) in
              Ok (indented_key_colon_line depth (encode_key k) (ro_indent o') :: rest)
        end).
    { destruct v; [reflexivity|apply I3|]. rewrite I1. reflexivity. }
    cbv zeta. rewrite P. destruct (try_fold_key_chain _ _ _ _ _ _ _) as [fr|]; [|reflexivity].
    destruct (fr_remainder fr) as [[| |es]|]; [reflexivity|reflexivity|rewrite I1; reflexivity|].
    destruct (fr_leaf fr); [reflexivity|apply I3|reflexivity].
  - intros k v depth. cbn [encode_array_lines]. rewrite (concat_ext _ _ v (fun x => I4 x (S depth))).
    destruct (extract_tabular_header v); [rewrite table_same|]; reflexivity.
  - intros v depth. cbn [encode_list_item_value_lines]. destruct v as [p|l|l]; [reflexivity| |apply I5].
    rewrite (concat_ext _ _ l (fun x => I4 x (S depth))). reflexivity.
  - intros v depth. cbn [encode_object_as_list_item_lines]. destruct v as [|[k v] rest]; [reflexivity|]. cbv zeta.
    rewrite I1. destruct v as [p|l|l]; [reflexivity| |rewrite I1; reflexivity].
    rewrite (concat_ext _ _ l (fun x => I4 x (S (S depth)))).
    destruct (if is_array_of_objects l then _ else _); [rewrite rows_same|]; reflexivity.
Qed.
Lemma encode_value_same v : encode_json_value v o = encode_json_value v o'.
Proof. destruct v; cbn [encode_json_value]; [reflexivity|apply encode_same|apply encode_same]. Qed.
End NoReplacer.

(** ** How deep the recursion goes *)

Lemma transform_deep rep fuel : forall v path, transform_children fuel rep v path = None <-> deep rep fuel path v.
Proof.
  induction fuel as [|fuel IH]; intros v path; [split; auto; constructor|]. split.
  - destruct v as [p|l|l]; cbn [transform_children].
    + discriminate.
    + destruct (transform_items _ _ _ _ _) as [m|] eqn:E; [discriminate|]. intros _.
      assert (H : exists i v y, nth_error l i = Some v /\ rep (dec_of_N (N.of_nat (0 + i))) v (path ++ [PSIndex (0 + i)]) = Some y /\
                   transform_children fuel rep (normalize_json_value y) (path ++ [PSIndex (0 + i)]) = None).
      { revert E. generalize 0. induction l as [|v l IHl]; intros j E; [discriminate|]. rewrite items_cons in E.
        assert (N : transform_items (transform_children fuel rep) rep path (S j) l = None ->
          exists i u y, nth_error (v :: l) i = Some u /\ rep (dec_of_N (N.of_nat (j + i))) u (path ++ [PSIndex (j + i)]) = Some y /\
            transform_children fuel rep (normalize_json_value y) (path ++ [PSIndex (j + i)]) = None).
        { intros En. destruct (IHl _ En) as (i & u & y & A & B & C). exists (S i), u, y.
          rewrite <- plus_n_Sm. cbn in B, C. auto. }
        destruct (rep _ _ _) as [x|] eqn:Er; auto. destruct (transform_children _ _ _ _) as [t|] eqn:Et.
        - apply N. destruct (transform_items _ _ _ _ l); [discriminate|auto].
        - exists 0, v, x. rewrite Nat.add_0_r. auto. }
      destruct H as (i & v & y & A & B & C). cbn [Nat.add] in *. econstructor; eauto using normalize_spec; [constructor; eauto|].
      now apply IH.
    + destruct (transform_entries _ _ _ _) as [m|] eqn:E; [discriminate|]. intros _.
      assert (H : exists k v y, In (k, v) l /\ rep k v (path ++ [PSKey k]) = Some y /\
                   transform_children fuel rep (normalize_json_value y) (path ++ [PSKey k]) = None).
      { induction l as [|[k v] l IHl]; [discriminate|]. rewrite entries_cons in E.
        assert (N : transform_entries (transform_children fuel rep) rep path l = None ->
          exists k' v' y, In (k', v') ((k, v) :: l) /\ rep k' v' (path ++ [PSKey k']) = Some y /\
                   transform_children fuel rep (normalize_json_value y) (path ++ [PSKey k']) = None).
        { intros En. destruct (IHl En) as (k' & v' & y & A & B & C). exists k', v', y. cbn. auto. }
        destruct (rep _ _ _) as [x|] eqn:Er; auto. destruct (transform_children _ _ _ _) as [t|] eqn:Et.
        - apply N. destruct (transform_entries _ _ _ l); [discriminate|auto].
        - exists k, v, x. cbn. auto. }
      destruct H as (k & v & y & A & B & C). econstructor; eauto using normalize_spec; [constructor; eauto|].
      now apply IH.
  - intros D. inversion D as [|? ? ? k s c y n Hc Hr Hn D']; subst. apply IH in D'. rewrite (norm_is _ _ Hn) in D'.
    destruct Hc as [l i v Hi|l k v Hi]; cbn [transform_children].
    + enough (transform_items (transform_children fuel rep) rep path 0 l = None) as -> by auto.
      change i with (0 + i) in Hr, D'. revert Hr D' Hi. generalize 0. clear D. revert i.
      induction l as [|u l IHl]; intros i j Hr D' Hi; [destruct i; discriminate|]. rewrite items_cons. destruct i as [|i].
      * rewrite Nat.add_0_r in *. injection Hi as ->. now rewrite Hr, D'.
      * rewrite <- plus_n_Sm in *. cbn in Hi. rewrite (IHl i (S j)) by auto.
        destruct (rep (dec_of_N (N.of_nat j)) u _) as [z|]; auto. now destruct (transform_children fuel rep (normalize_json_value z) _).
    + enough (transform_entries (transform_children fuel rep) rep path l = None) as -> by auto.
      clear D. induction l as [|[k' u] l IHl]; [easy|]. rewrite entries_cons. destruct Hi as [Hi|Hi].
      * injection Hi as -> ->. now rewrite Hr, D'.
      * rewrite IHl by auto. destruct (rep k' u _) as [z|]; auto. now destruct (transform_children fuel rep (normalize_json_value z) _).
Qed.
Lemma apply_deep rep fuel v : apply_replacer fuel v rep = None <-> deep_root rep fuel v.
Proof.
  unfold apply_replacer. split.
  - destruct (rep _ _ _) as [x|] eqn:E; intros H; apply transform_deep in H.
    + eapply dr_new; eauto using normalize_spec.
    + now apply dr_keep.
  - intros [E D|x n E Hn D]; rewrite E; apply transform_deep; auto. now rewrite <- (norm_is _ _ Hn).
Qed.
