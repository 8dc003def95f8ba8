(** Conversion to and from the values of serde_json. *)
From Coq Require Import SpecFloat.
From Verif Require Import Chars Floats Json JsonInd NumProof Shared EncPrim Normalize JsonEq Scanner Parser DecValidation Decoders EventBuilder Expand DecodeApi
  Spec JsonText SpecJson JsonNumProof JsonTextProof JsonGrammar SpecSerde Serde Lex.

Local Open Scope nat_scope.

(** * Maps *)

Lemma insert_names {A} (m : list (str * A)) k v :
  map fst (map_insert m k v) = if existsb (fun x => str_eqb x k) (map fst m) then map fst m else map fst m ++ [k].
Proof.
  induction m as [|[k' w] m IH]; [reflexivity|]. cbn [map_insert map fst existsb].
  destruct (str_eqb k' k) eqn:E; cbn [orb map fst]; [reflexivity|]. rewrite IH. now destruct (existsb _ _).
Qed.
Lemma filter_first (p : str -> bool) ks : filter p (first_names ks) = first_names (filter p ks).
Proof.
  induction ks as [|k ks IH]; [reflexivity|]. cbn [first_names filter]. destruct (p k) eqn:E.
  - cbn [first_names]. f_equal. rewrite <- IH. clear. induction (first_names ks) as [|x l IHl]; [reflexivity|]. cbn [filter].
    destruct (str_eqb x k) eqn:Ek, (p x) eqn:Ep; cbn [negb filter]; rewrite ?Ek, ?Ep, ?IHl; reflexivity.
  - rewrite <- IH. clear - E. induction (first_names ks) as [|x l IHl]; [reflexivity|]. cbn [filter].
    destruct (str_eqb x k) eqn:Ek; cbn [negb].
    + apply str_eqb_eq in Ek as ->. now rewrite E.
    + cbn [filter]. destruct (p x); now rewrite IHl.
Qed.
Lemma first_names_in ks k : In k (first_names ks) <-> In k ks.
Proof.
  revert k. induction ks as [|x ks IH]; intros k; [reflexivity|]. cbn [first_names In].
  rewrite filter_In, IH. destruct (str_eqb k x) eqn:E; cbn [negb].
  - apply str_eqb_eq in E as ->. intuition.
  - intuition.
Qed.
Lemma first_names_nodup ks : NoDup (first_names ks).
Proof.
  induction ks as [|k ks IH]; [constructor|]. cbn [first_names]. constructor.
  - rewrite filter_In. intros [_ H]. now rewrite str_eqb_refl in H.
  - now apply NoDup_filter.
Qed.
Lemma existsb_in ks k : existsb (fun x => str_eqb x k) ks = true <-> In k ks.
Proof.
  rewrite existsb_exists. split.
  - intros (x & Hx & E). apply str_eqb_eq in E as ->. exact Hx.
  - intros H. exists k. split; [exact H|apply str_eqb_refl].
Qed.
Lemma first_names_snoc ks k :
  first_names (ks ++ [k]) = if existsb (fun x => str_eqb x k) ks then first_names ks else first_names ks ++ [k].
Proof.
  induction ks as [|x ks IH]; [reflexivity|]. cbn [app first_names existsb]. rewrite IH.
  destruct (str_eqb x k) eqn:E; cbn [orb].
  - apply str_eqb_eq in E as ->. destruct (existsb _ ks) eqn:Ex; [reflexivity|].
    rewrite filter_app. cbn [filter]. rewrite str_eqb_refl. cbn [negb]. now rewrite app_nil_r.
  - destruct (existsb _ ks) eqn:Ex; [reflexivity|]. rewrite filter_app. cbn [filter].
    destruct (str_eqb k x) eqn:E'; [apply str_eqb_eq in E' as ->; now rewrite str_eqb_refl in E|]. reflexivity.
Qed.
Lemma last_of_snoc {A} (l : list (str * A)) k v x :
  last_of (l ++ [(k, v)]) x = if str_eqb k x then Some v else last_of l x.
Proof.
  induction l as [|[k' w] l IH]; cbn [app last_of]; [reflexivity|]. rewrite IH. now destruct (str_eqb k x).
Qed.
Lemma last_of_in {A} (l : list (str * A)) k : In k (map fst l) <-> exists v, last_of l k = Some v.
Proof.
  induction l as [|[k' w] l IH]; cbn [map fst In last_of]; [split; [tauto|intros [v H]; discriminate]|].
  destruct (last_of l k) as [v|] eqn:E.
  - split; [eauto|]. intros _. right. apply IH. eauto.
  - destruct (str_eqb k' k) eqn:Ek.
    + apply str_eqb_eq in Ek as ->. split; eauto.
    + split; [|intros [v H]; discriminate]. intros [->|H]; [now rewrite str_eqb_refl in Ek|].
      apply IH in H as [v H]. discriminate.
Qed.
Lemma last_of_member {A} (l : list (str * A)) k v : last_of l k = Some v -> In (k, v) l.
Proof.
  induction l as [|[k' w] l IH]; cbn [last_of]; [discriminate|].
  destruct (last_of l k) as [u|] eqn:E.
  - intros H. right. auto.
  - destruct (str_eqb k' k) eqn:Ek; [|discriminate]. apply str_eqb_eq in Ek as ->. intros H. injection H as ->. now left.
Qed.

(** An association list is determined by its names and its lookups, if the names are distinct. *)
Lemma map_insert_unique {A} (ks : list str) (f g : str -> option A) k v :
  NoDup ks -> (forall x, In x ks -> exists w, f x = Some w) ->
  (forall x, g x = if str_eqb k x then Some v else f x) ->
  map_insert (flat_map (fun k => match f k with Some v => [(k, v)] | None => [] end) ks) k v =
  flat_map (fun k => match g k with Some v => [(k, v)] | None => [] end)
    (if existsb (fun x => str_eqb x k) ks then ks else ks ++ [k]).
Proof.
  intros Hn Hf Hg. induction ks as [|x ks IH]; cbn [flat_map existsb app map_insert].
  - rewrite Hg, str_eqb_refl. reflexivity.
  - inversion Hn as [|? ? Hx Hn']; subst. destruct (Hf x (or_introl eq_refl)) as [w Hw]. rewrite Hw. cbn [app map_insert].
    destruct (str_eqb x k) eqn:E.
    + apply str_eqb_eq in E as ->. cbn [orb flat_map]. rewrite Hg, str_eqb_refl. cbn [app]. f_equal.
      clear - Hx Hg. induction ks as [|y ks IH]; [reflexivity|]. cbn [flat_map]. rewrite Hg.
      destruct (str_eqb k y) eqn:E; [apply str_eqb_eq in E as ->; exfalso; apply Hx; now left|].
      f_equal. apply IH. intros H. apply Hx. now right.
    + cbn [orb].
      assert (E' : str_eqb k x = false).
      { destruct (str_eqb k x) eqn:E'; [|reflexivity]. apply str_eqb_eq in E' as ->. rewrite str_eqb_refl in E. discriminate. }
      rewrite IH; [|exact Hn'|intros y Hy; apply Hf; now right].
      destruct (existsb _ ks); cbn [flat_map app]; rewrite Hg, E', Hw; reflexivity.
Qed.
Theorem map_of_spec {A} (l : list (str * A)) : map_of l = unique_last l.
Proof.
  unfold map_of. rewrite <- (rev_involutive l). induction (rev l) as [|[k v] r IH]; [reflexivity|].
  cbn [rev]. rewrite fold_left_app, IH. cbn [fold_left fst snd]. set (l' := rev r). unfold unique_last at 1.
  rewrite (map_insert_unique _ _ (last_of (l' ++ [(k, v)]))).
  - unfold unique_last. rewrite map_app. cbn [map fst]. rewrite first_names_snoc.
    assert (E : existsb (fun x => str_eqb x k) (first_names (map fst l')) = existsb (fun x => str_eqb x k) (map fst l')).
    { apply eq_true_iff_eq. rewrite !existsb_in. apply first_names_in. }
    rewrite E. reflexivity.
  - apply first_names_nodup.
  - intros x Hx. apply (proj1 (first_names_in _ _)) in Hx. exact (proj1 (last_of_in _ _) Hx).
  - intros x. apply last_of_snoc.
Qed.

Lemma map_insert_map {A B} (f : A -> B) m k v :
  map_insert (map (fun kv : str * A => (fst kv, f (snd kv))) m) k (f v) =
  map (fun kv => (fst kv, f (snd kv))) (map_insert m k v).
Proof.
  induction m as [|[k' w] m IH]; [reflexivity|]. cbn [map map_insert fst snd].
  destruct (str_eqb k' k); cbn [map fst snd]; [reflexivity|]. now rewrite IH.
Qed.
Lemma map_of_map {A B} (f : A -> B) (l : list (str * A)) :
  map_of (map (fun kv => (fst kv, f (snd kv))) l) = map (fun kv => (fst kv, f (snd kv))) (map_of l).
Proof.
  unfold map_of. change (@nil (str * B)) with (map (fun kv : str * A => (fst kv, f (snd kv))) []). generalize (@nil (str * A)) as m.
  induction l as [|[k v] l IH]; intros m; [reflexivity|]. cbn [map fold_left fst snd]. rewrite map_insert_map. apply IH.
Qed.
Lemma unique_last_map {A B} (f : A -> B) (l : list (str * A)) :
  unique_last (map (fun kv => (fst kv, f (snd kv))) l) = map (fun kv => (fst kv, f (snd kv))) (unique_last l).
Proof. rewrite <- !map_of_spec. apply map_of_map. Qed.
Lemma unique_last_names {A} (l : list (str * A)) : map fst (unique_last l) = first_names (map fst l).
Proof.
  unfold unique_last. assert (H : forall k, In k (first_names (map fst l)) -> exists v, last_of l k = Some v).
  { intros k Hk. apply (proj1 (first_names_in _ _)) in Hk. exact (proj1 (last_of_in _ _) Hk). }
  induction (first_names (map fst l)) as [|k ks IH]; [reflexivity|]. cbn [flat_map].
  destruct (H k (or_introl eq_refl)) as [v ->]. cbn [app map fst]. f_equal. apply IH. intros x Hx. apply H. now right.
Qed.
Lemma unique_last_in {A} (l : list (str * A)) k v : In (k, v) (unique_last l) <-> last_of l k = Some v.
Proof.
  unfold unique_last. rewrite in_flat_map. split.
  - intros (x & _ & H). destruct (last_of l x) as [w|] eqn:E; [|destruct H]. destruct H as [H|[]]. injection H as -> ->. exact E.
  - intros H. exists k. rewrite H. split; [|now left]. apply (proj2 (first_names_in _ _)). apply last_of_in. eauto.
Qed.
Lemma unique_last_sub {A} (l : list (str * A)) kv : In kv (unique_last l) -> In kv l.
Proof. destruct kv as [k v]. intros H. apply unique_last_in in H. now apply last_of_member. Qed.
Lemma first_names_id ks : NoDup ks -> first_names ks = ks.
Proof.
  induction 1 as [|k ks Hk _ IH]; [reflexivity|]. cbn [first_names]. rewrite IH. f_equal.
  clear - Hk. induction ks as [|x ks IH]; [reflexivity|]. cbn [filter].
  destruct (str_eqb x k) eqn:E; [apply str_eqb_eq in E as ->; exfalso; apply Hk; now left|].
  cbn [negb]. f_equal. apply IH. intros H. apply Hk. now right.
Qed.
Lemma unique_last_id {A} (l : list (str * A)) : NoDup (map fst l) -> unique_last l = l.
Proof.
  intros H. unfold unique_last. rewrite first_names_id by exact H.
  assert (G : forall r, (forall k v, In (k, v) r -> last_of l k = Some v) ->
    flat_map (fun k => match last_of l k with Some v => [(k, v)] | None => [] end) (map fst r) = r).
  { induction r as [|[k v] r IH]; intros Hr; [reflexivity|]. cbn [map fst flat_map].
    rewrite (Hr k v (or_introl eq_refl)). cbn [app]. f_equal. apply IH. intros x w Hx. apply Hr. now right. }
  apply G. clear G. induction l as [|[k v] l IH]; intros x w Hx; [destruct Hx|].
  cbn [map fst] in H. inversion H as [|? ? Hk Hl]; subst. cbn [last_of]. destruct Hx as [E|Hx].
  - injection E as -> ->. destruct (last_of l x) as [u|] eqn:Eu.
    + exfalso. apply Hk. apply last_of_in. eauto.
    + now rewrite str_eqb_refl.
  - now rewrite (IH Hl x w Hx).
Qed.

Lemma Forall_unique {A} (P : str * A -> Prop) l : Forall P l -> Forall P (unique_last l).
Proof. rewrite !Forall_forall. intros H x Hx. apply H. now apply unique_last_sub. Qed.

Lemma map_pair_fst {A B} (f : A -> B) (l : list (str * A)) : map fst (map (fun kv => (fst kv, f (snd kv))) l) = map fst l.
Proof. rewrite map_map. apply map_ext. reflexivity. Qed.

(** * [last_wins] *)

Lemma last_wins_obj l : last_wins (JObj l) = JObj (map (fun kv => (fst kv, last_wins (snd kv))) (unique_last l)).
Proof. cbn [last_wins]. now rewrite unique_last_map. Qed.
Lemma last_wins_distinct v : distinct_keys (last_wins v).
Proof.
  induction v as [p|l IH|l IH] using json_ind'; [constructor| |].
  - cbn [last_wins]. constructor. apply Forall_map. exact IH.
  - rewrite last_wins_obj. constructor.
    + rewrite map_pair_fst, unique_last_names. apply first_names_nodup.
    + apply Forall_map. cbn [snd]. apply Forall_unique. exact IH.
Qed.
Lemma last_wins_id v : distinct_keys v -> last_wins v = v.
Proof.
  induction v as [p|l IH|l IH] using json_ind'; intros H; inversion H as [|? Hl|? Hn Hl]; subst; [reflexivity| |].
  - cbn [last_wins]. f_equal. clear H. induction IH as [|v r Hv _ IHr]; [reflexivity|]. inversion Hl; subst. cbn [map]. f_equal; auto.
  - rewrite last_wins_obj, unique_last_id by exact Hn. f_equal. clear H Hn.
    induction IH as [|[k v] r Hv _ IHr]; [reflexivity|]. inversion Hl; subst. cbn [map fst snd] in *. f_equal; auto. f_equal; auto.
Qed.
Lemma last_wins_canonical v : canonical v -> canonical (last_wins v).
Proof.
  induction v as [p|l IH|l IH] using json_ind'; intros H; inversion H as [? Hp|? Hl|? Hl]; subst; [exact H| |].
  - cbn [last_wins]. constructor. apply Forall_map. rewrite Forall_forall in *. auto.
  - rewrite last_wins_obj. constructor. apply Forall_map. cbn [snd]. apply Forall_unique. rewrite Forall_forall in *. auto.
Qed.

(** * There and back *)

Lemma from_f64_norm x : norm_prim (PNum x) (from_f64 x).
Proof.
  unfold from_f64. pose proof (normalize_primitive_spec (PNum x)) as H. unfold normalize_primitive in H.
  destruct (negb (f64_is_finite x)); exact H.
Qed.
Lemma to_from v : norm_json (last_wins v) (from_serde (to_serde v)).
Proof.
  induction v as [p|l IH|l IH] using json_ind'.
  - destruct p as [s|x|b|]; cbn [last_wins to_serde from_serde]; try (constructor; apply np_same; exact I).
    destruct (f64_is_finite x) eqn:E; cbn [from_serde as_f64]; constructor; [apply from_f64_norm|now apply np_nonfinite].
  - cbn [last_wins to_serde from_serde]. constructor. rewrite map_map.
    induction IH as [|v r Hv _ IHr]; constructor; auto.
  - rewrite last_wins_obj. cbn [to_serde from_serde]. constructor.
    rewrite map_of_map, map_map, map_of_spec. apply Forall_unique in IH.
    induction IH as [|[k v] r Hv _ IHr]; constructor; auto.
Qed.
Lemma norm_json_id v w : norm_json v w -> canonical v -> w = v.
Proof.
  revert w. induction v as [p|l IH|l IH] using json_ind'; intros w H Hc; inversion H as [? q Hq|? m Hm|? m Hm]; subst;
    inversion Hc as [? Hp|? Hl|? Hl]; subst; f_equal.
  - destruct Hq as [p _|x Hx|x Hx]; [reflexivity| |].
    + cbn in Hp. destruct Hp as [Hp _]. congruence.
    + cbn in Hp. destruct Hp as [_ Hp]. contradiction.
  - clear H Hc. revert IH Hl. induction Hm as [|a b l m Hab _ IHm]; intros IH Hl; [reflexivity|]. inversion IH; inversion Hl; subst. f_equal; auto.
  - clear H Hc. revert IH Hl. induction Hm as [|[k a] [k' b] l m [Ek Hab] _ IHm]; intros IH Hl; [reflexivity|].
    inversion IH; inversion Hl; subst. cbn [fst snd] in *. f_equal; auto. f_equal; auto.
Qed.

(** * Text *)

Lemma list_text_join {A} (f : A -> str) l : list_text f [] l = join cCOMMA (map f l).
Proof.
  induction l as [|x l IH]; [reflexivity|]. cbn [list_text map app]. rewrite IH. unfold comma_unless.
  destruct l as [|y l]; cbn [is_empty map]; [cbn; now rewrite !app_nil_r|]. reflexivity.
Qed.
Lemma list_eq_nil {A} (l : list A) : {l = []} + {l <> []}.
Proof. destruct l; [now left|right; discriminate]. Qed.
Theorem serde_text st v : forall d, serde_to_string st (to_serde v) = jtext serde_string st 0 d (last_wins v).
Proof.
  induction v as [p|l IH|l IH] using json_ind'; intros d.
  - destruct p as [s|x|b|]; try reflexivity. cbn [last_wins to_serde jtext ptext].
    destruct (f64_is_finite x) eqn:E; [reflexivity|]. cbn [serde_to_string].
    destruct (number_text st x) as [n|] eqn:En; [|reflexivity].
    assert (f64_is_finite x = true) by (apply (number_text_finite st); eauto). congruence.
  - cbn [last_wins to_serde serde_to_string]. destruct (list_eq_nil l) as [->|Hne]; [reflexivity|].
    rewrite jtext_arr by (destruct l; [congruence|discriminate]). change (break 0 (S d)) with (@nil N). change (break 0 d) with (@nil N).
    rewrite list_text_join, !map_map. cbn [app]. f_equal. f_equal. f_equal.
    clear Hne. induction IH as [|v r Hv _ IHr]; [reflexivity|]. cbn [map]. f_equal; auto.
  - rewrite last_wins_obj. cbn [to_serde serde_to_string]. rewrite map_of_map, map_of_spec, map_map. cbn [fst snd].
    apply Forall_unique in IH. set (m := unique_last l) in *. clearbody m. clear l.
    destruct (list_eq_nil m) as [->|Hne]; [reflexivity|].
    rewrite jtext_obj by (destruct m; [congruence|discriminate]). change (break 0 (S d)) with (@nil N). change (break 0 d) with (@nil N).
    rewrite list_text_join, map_map. cbn [app]. f_equal. f_equal. f_equal.
    clear Hne. induction IH as [|[k v] r Hv _ IHr]; [reflexivity|]. cbn [map]. f_equal; [|exact IHr].
    unfold mtext. cbn [fst snd]. cbn [snd] in Hv. rewrite (Hv (S d)). reflexivity.
Qed.
