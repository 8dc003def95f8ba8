(** Normalisation and replacement: C28, C29, C30. *)
From Coq Require Import Relation_Operators Wellfounded.
From Verif Require Import Chars Floats Json JsonInd JsonEq Shared EncPrim Normalize Folding Encoders Replacer EncodeApi
  Fixtures Spec SpecReplace NumProof PrimProof EncTotal WrittenProps ReplaceProof.

Local Open Scope nat_scope.

(** ** C28: normalisation *)

(** Every value has exactly one normal form, which is its own normal form; and encoding the value
    is encoding its normal form, whatever the options. *)
Theorem C28_normal_form :
  forall v : json, exists n : json,
    norm_json v n /\ (forall m, norm_json v m -> m = n) /\
    norm_json n n /\ canonical n /\
    forall (fuel : nat) (eo : option encode_options),
      encode_lines fuel v eo = encode_lines fuel n eo /\
      encode_stream_events fuel v eo = encode_stream_events fuel n eo.
Proof.
  intros v. pose proof (normalize_spec v) as Hn. exists (normalize_json_value v).
  assert (Hc : canonical (normalize_json_value v)) by (eapply norm_canonical; eauto).
  split; auto. split; [intros m Hm; eapply norm_fun; eauto|]. split.
  { rewrite <- (normalize_canonical (normalize_json_value v)) at 2 by auto. apply normalize_spec. }
  split; auto. intros fuel eo. unfold encode_lines, encode_stream_events, prepare.
  rewrite (normalize_canonical (normalize_json_value v)) by auto. auto.
Qed.
Print Assumptions C28_normal_form.

(** A value that needs no normalisation is left as it is. *)
Theorem C28_nothing_else_changes : forall v n : json, canonical v -> norm_json v n -> n = v.
Proof. intros v n Hc Hn. rewrite (norm_is _ _ Hn). now apply normalize_canonical. Qed.
Print Assumptions C28_nothing_else_changes.

Lemma prepare_canonical fuel v o w : prepare fuel v o = Ok w -> canonical w.
Proof.
  assert (Hc : canonical (normalize_json_value v)) by (eapply norm_canonical, normalize_spec).
  unfold prepare. destruct (ro_replacer o) as [rep|]; [|intros E; injection E as <-; auto].
  destruct (apply_replacer _ _ _) as [r|] eqn:E; [|discriminate]. intros H; injection H as <-.
  eapply root_canonical; eauto using apply_sound.
Qed.
Lemma events_canonical w : canonical w -> forall p, In (EvPrim p) (emit_events w) -> json_prim p.
Proof.
  induction w using json_ind'; intros Hc q Hi; inversion Hc as [? P|? C|? C]; subst; cbn [emit_events] in Hi.
  - destruct Hi as [Hi|[]]. now injection Hi as <-.
  - destruct Hi as [Hi|Hi]; [discriminate|]. apply in_app_or in Hi as [Hi|[Hi|[]]]; [|discriminate].
    apply in_flat_map in Hi as (x & Hx & Hi). rewrite Forall_forall in *. eauto.
  - destruct Hi as [Hi|Hi]; [discriminate|]. apply in_app_or in Hi as [Hi|[Hi|[]]]; [|discriminate].
    apply in_flat_map in Hi as (x & Hx & [Hi|Hi]); [discriminate|]. rewrite Forall_forall in *. eauto.
Qed.

(** No event carries NaN, an infinity or a negative zero, even if a replacer supplies them. *)
Theorem C28_events_have_json_numbers :
  forall (fuel : nat) (v : json) (eo : option encode_options) (evs : list event) (p : prim),
    encode_stream_events fuel v eo = Ok evs -> In (EvPrim p) evs -> json_prim p.
Proof.
  intros fuel v eo evs p E Hi. unfold encode_stream_events in E. cbv zeta in E.
  destruct (prepare _ _ _) as [w|] eqn:Ew; [|discriminate]. cbn [bind] in E. injection E as <-.
  eapply events_canonical; eauto using prepare_canonical.
Qed.
Print Assumptions C28_events_have_json_numbers.

(** Negative zero, NaN and infinities inside a value, and one supplied by a replacer. *)
Example C28_case :
  let v := JObj [(lit "a", JArr [jnum (lit "-0"); JPrim (PNum f64_nan); jnum (lit "1e999")]); (lit "b", jnum (lit "-1.50"))] in
  encode 0 v None = Ok (lit "a[3]: 0,null,null
b: -1.5") /\
  encode 5 v (Some (EncOpts None None None None (Some (fun k x _ => if str_eqb k (lit "b") then Some (JPrim (PNum f64_nan)) else Some x))))
  = Ok (lit "a[3]: 0,null,null
b: null").
Proof. vm_compute. auto. Qed.

(** ** C29: the laws of replacing *)

(** Encoding with a replacer is encoding the replaced value, given by [replaced_root], without one;
    [f0] is the recursion depth that is needed. *)
Theorem C29_replacer_meaning :
  forall (v n w : json) (rep : replacer) (i : option nat) (d : option char) (kf : option key_folding_mode) (fd : option N),
    norm_json v n -> replaced_root rep n w ->
    exists f0 : nat, forall fuel, f0 <= fuel ->
      encode_lines fuel v (Some (EncOpts i d kf fd (Some rep))) = encode_lines 0 w (Some (EncOpts i d kf fd None)) /\
      encode_stream_events fuel v (Some (EncOpts i d kf fd (Some rep))) = encode_stream_events 0 w (Some (EncOpts i d kf fd None)).
Proof.
  intros v n w rep i d kf fd Hn Hr. destruct (apply_complete _ _ _ Hr) as [f0 Hf]. exists f0. intros fuel Hl.
  assert (Hc : canonical w) by eauto using root_canonical, norm_canonical.
  rewrite (norm_is _ _ Hn) in Hf.
  unfold encode_lines, encode_stream_events, prepare. cbv zeta. cbn [resolve_encode_options ro_replacer eo_replacer unwrap_or].
  rewrite Hf by auto. rewrite (normalize_canonical w) by auto. cbn [bind]. split; [apply encode_value_same|reflexivity].
Qed.
Print Assumptions C29_replacer_meaning.

(** Conversely, whatever is encoded is a replaced value: there is no other result. *)
Theorem C29_replacer_meaning_only :
  forall (fuel : nat) (v : json) (rep : replacer) i d kf fd (evs : list event),
    encode_stream_events fuel v (Some (EncOpts i d kf fd (Some rep))) = Ok evs ->
    exists n w, norm_json v n /\ replaced_root rep n w /\
      encode_stream_events 0 w (Some (EncOpts i d kf fd None)) = Ok evs.
Proof.
  intros fuel v rep i d kf fd evs E. unfold encode_stream_events in E. cbv zeta in E.
  destruct (prepare _ _ _) as [w|] eqn:Ew; [|discriminate]. cbn [bind] in E. injection E as <-.
  pose proof (prepare_canonical _ _ _ _ Ew) as Hc. unfold prepare in Ew.
  cbn [resolve_encode_options ro_replacer eo_replacer unwrap_or] in Ew. destruct (apply_replacer _ _ _) as [r|] eqn:Er; [|discriminate].
  injection Ew as ->. exists (normalize_json_value v), w. split; [apply normalize_spec|]. split; [eapply apply_sound; eauto|].
  unfold encode_stream_events, prepare. cbn [resolve_encode_options ro_replacer eo_replacer unwrap_or bind].
  now rewrite normalize_canonical.
Qed.
Print Assumptions C29_replacer_meaning_only.

(** The result is unique: the specification is deterministic. *)
Theorem C29_replacer_deterministic :
  forall (rep : replacer) (v a b : json), replaced_root rep v a -> replaced_root rep v b -> a = b.
Proof.
  intros rep v a b Ha Hb. destruct (apply_complete _ _ _ Ha) as [n Hn]. destruct (apply_complete _ _ _ Hb) as [m Hm].
  specialize (Hn (n + m) ltac:(lia)). specialize (Hm (n + m) ltac:(lia)). congruence.
Qed.
Print Assumptions C29_replacer_deterministic.

(** A replacer that returns every value unchanged has no effect. *)
Theorem C29_identity_replacer :
  forall (v : json) (rep : replacer) i d kf fd,
    (forall k x p, rep k x p = Some x) ->
    exists f0 : nat, forall fuel, f0 <= fuel ->
      encode_lines fuel v (Some (EncOpts i d kf fd (Some rep))) = encode_lines 0 v (Some (EncOpts i d kf fd None)).
Proof.
  intros v rep i d kf fd Hid. pose proof (normalize_spec v) as Hn. set (n := normalize_json_value v) in *.
  assert (Hc : canonical n) by eauto using norm_canonical.
  destruct (C29_replacer_meaning v n n rep i d kf fd Hn) as [f0 H].
  { eapply rr_new; [apply Hid| |apply replaced_identity; eauto].
    rewrite <- (normalize_canonical n) at 2 by auto. apply normalize_spec. }
  exists f0. intros fuel Hf. destruct (H fuel Hf) as [-> _]. unfold encode_lines, prepare. cbv zeta.
  cbn [resolve_encode_options ro_replacer eo_replacer unwrap_or]. rewrite (normalize_canonical n) by auto. reflexivity.
Qed.
Print Assumptions C29_identity_replacer.

(** A replacer that only removes: exactly the refused positions go, the root stays. *)
Theorem C29_dropping_replacer :
  forall (v n : json) (rep : replacer) (keep : list path_segment -> bool) i d kf fd,
    (forall k x p, rep k x p = if keep p then Some x else None) -> norm_json v n ->
    exists f0 : nat, forall fuel, f0 <= fuel ->
      encode_lines fuel v (Some (EncOpts i d kf fd (Some rep)))
      = encode_lines 0 (prune keep [] n) (Some (EncOpts i d kf fd None)).
Proof.
  intros v n rep keep i d kf fd Hk Hn. assert (Hc : canonical n) by eauto using norm_canonical.
  destruct (C29_replacer_meaning v n (prune keep [] n) rep i d kf fd Hn) as [f0 H].
  { destruct (keep []) eqn:E.
    - eapply rr_new; [now rewrite Hk, E| |apply replaced_prune; eauto].
      rewrite <- (normalize_canonical n) at 2 by auto. apply normalize_spec.
    - apply rr_keep; [now rewrite Hk, E|apply replaced_prune; eauto]. }
  exists f0. intros fuel Hf. now destruct (H fuel Hf).
Qed.
Print Assumptions C29_dropping_replacer.

(** A replacer that changes leaves only: every leaf is changed once. *)
Theorem C29_leaf_replacer :
  forall (v n : json) (rep : replacer) (f : prim -> prim) i d kf fd,
    (forall k p path, rep k (JPrim p) path = Some (JPrim (f p))) ->
    (forall k x path, (forall p, x <> JPrim p) -> rep k x path = Some x) -> norm_json v n ->
    exists f0 : nat, forall fuel, f0 <= fuel ->
      encode_lines fuel v (Some (EncOpts i d kf fd (Some rep)))
      = encode_lines 0 (map_leaves f n) (Some (EncOpts i d kf fd None)).
Proof.
  intros v n rep f i d kf fd Hp Ho Hn. assert (Hc : canonical n) by eauto using norm_canonical.
  destruct (C29_replacer_meaning v n (normalize_json_value (map_leaves f n)) rep i d kf fd Hn) as [f0 H].
  { destruct n as [p|l|l] eqn:E.
    - eapply rr_new; [apply Hp|apply normalize_spec|constructor].
    - rewrite <- E in *. eapply rr_new; [apply Ho; subst; discriminate| |apply replaced_leaves; auto; subst; discriminate].
      rewrite <- (normalize_canonical n) at 2 by auto. apply normalize_spec.
    - rewrite <- E in *. eapply rr_new; [apply Ho; subst; discriminate| |apply replaced_leaves; auto; subst; discriminate].
      rewrite <- (normalize_canonical n) at 2 by auto. apply normalize_spec. }
  exists f0. intros fuel Hf. destruct (H fuel Hf) as [-> _]. unfold encode_lines, prepare. cbv zeta.
  cbn [resolve_encode_options ro_replacer eo_replacer unwrap_or]. rewrite (normalize_canonical (normalize_json_value _)); auto.
  eapply norm_canonical, normalize_spec.
Qed.
Print Assumptions C29_leaf_replacer.

(** Removal by key and by index; the root is refused but kept. *)
Definition drop_some : replacer := fun _ x p =>
  match p with
  | [] | [PSKey [97%N]] | [_; PSIndex 1] => None
  | _ => Some x
  end.
Definition keep_some (p : list path_segment) : bool :=
  match p with [] | [PSKey [97%N]] | [_; PSIndex 1] => false | _ => true end.
Example C29_case :
  (forall k x p, drop_some k x p = if keep_some p then Some x else None) /\
  let v := JObj [(lit "a", jnum (lit "1")); (lit "b", JArr [jnum (lit "1"); jnum (lit "2"); jnum (lit "3")]);
                 (lit "c", JObj [(lit "a", JPrim PNull)])] in
  prune keep_some [] v = JObj [(lit "b", JArr [jnum (lit "1"); jnum (lit "3")]); (lit "c", JObj [(lit "a", JPrim PNull)])] /\
  encode 4 v (Some (EncOpts None None None None (Some drop_some))) = Ok (lit "b[2]: 1,3
c:
  a: null").
Proof.
  split; [|vm_compute; auto]. intros k x p. unfold drop_some, keep_some.
  repeat match goal with |- context [match ?y with _ => _ end] => destruct y; try reflexivity end.
Qed.

(** ** C30: termination *)

(** A replacer may answer a leaf with something that contains a leaf: the recursion never ends, and
    no recursion depth suffices. *)
Definition nester : replacer := fun _ _ _ => Some (JArr [JPrim PNull]).
Lemma nester_diverges fuel : forall path, transform_children fuel nester (JArr [JPrim PNull]) path = None.
Proof.
  induction fuel as [|fuel IH]; intros path; [reflexivity|]. cbn [transform_children]. rewrite items_cons.
  change (nester (dec_of_N (N.of_nat 0)) (JPrim PNull) (path ++ [PSIndex 0])) with (Some (JArr [JPrim PNull])).
  change (normalize_json_value (JArr [JPrim PNull])) with (JArr [JPrim PNull]). cbv iota beta. now rewrite IH.
Qed.
Theorem C30_replacement_terminates_refuted :
  exists rep : replacer, forall (fuel : nat) (v : json) i d kf fd,
    encode_lines fuel v (Some (EncOpts i d kf fd (Some rep))) = Err EFuel.
Proof.
  exists nester. intros fuel v i d kf fd. unfold encode_lines, prepare. cbv zeta. cbn [resolve_encode_options ro_replacer eo_replacer unwrap_or].
  unfold apply_replacer. unfold nester at 1. cbn [normalize_json_value map normalize_primitive].
  now rewrite nester_diverges.
Qed.
Print Assumptions C30_replacement_terminates_refuted.

(** Exactly: with [fuel] nested calls the encoder is done unless the answers of the replacer lead
    [fuel] levels down; so it terminates exactly when there is a depth that they do not reach. *)
Theorem C30_recursion_depth :
  forall (fuel : nat) (v n : json) (rep : replacer) i d kf fd, norm_json v n ->
    (deep_root rep fuel n -> encode_lines fuel v (Some (EncOpts i d kf fd (Some rep))) = Err EFuel) /\
    (~ deep_root rep fuel n -> exists ls : list str,
       forall fuel', fuel <= fuel' -> encode_lines fuel' v (Some (EncOpts i d kf fd (Some rep))) = Ok ls).
Proof.
  intros fuel v n rep i d kf fd Hn. rewrite (norm_is _ _ Hn).
  set (o := resolve_encode_options (Some (EncOpts i d kf fd (Some rep)))).
  unfold encode_lines, prepare. cbv zeta. fold o. split.
  - intros H. cbn [o resolve_encode_options ro_replacer eo_replacer unwrap_or].
    apply apply_deep in H. now rewrite H.
  - intros H. destruct (apply_replacer fuel (normalize_json_value v) rep) as [w|] eqn:E; [|now apply apply_deep in E].
    destruct (encode_json_value_total w o) as [ls El]. exists ls. intros fuel' Hf.
    cbn [o resolve_encode_options ro_replacer eo_replacer unwrap_or].
    rewrite (apply_mono _ _ _ _ _ Hf E). exact El.
Qed.
Print Assumptions C30_recursion_depth.

Theorem C30_terminates_exactly :
  forall (v n : json) (rep : replacer) i d kf fd, norm_json v n ->
    (exists fuel ls, encode_lines fuel v (Some (EncOpts i d kf fd (Some rep))) = Ok ls) <->
    (exists depth, ~ deep_root rep depth n).
Proof.
  intros v n rep i d kf fd Hn. split.
  - intros (fuel & ls & E). exists fuel. intros H.
    destruct (C30_recursion_depth fuel v n rep i d kf fd Hn) as [A _]. rewrite (A H) in E. discriminate.
  - intros (depth & H). destruct (C30_recursion_depth depth v n rep i d kf fd Hn) as [_ B].
    destruct (B H) as [ls E]. exists depth, ls. now apply E.
Qed.
Print Assumptions C30_terminates_exactly.

(** It ends whenever some rank in a well-founded order drops from a value to each of its replaced
    children. *)
Theorem C30_ranked_replacement_terminates :
  forall (v : json) (rep : replacer) (A : Type) (R : A -> A -> Prop) (rank : list path_segment -> json -> A) i d kf fd,
    well_founded R ->
    (forall path x k s c y n, child x k s c -> rep k c (path ++ [s]) = Some y -> norm_json y n ->
       R (rank (path ++ [s]) n) (rank path x)) ->
    exists (f0 : nat) (ls : list str), forall fuel, f0 <= fuel ->
      encode_lines fuel v (Some (EncOpts i d kf fd (Some rep))) = Ok ls.
Proof.
  intros v rep A R rank i d kf fd Hw Hr. destruct (apply_ranked A R rep rank (normalize_json_value v) Hw) as (f0 & w & E).
  { intros path x k s c y Hc Ey. eapply Hr; eauto using normalize_spec. }
  set (o := resolve_encode_options (Some (EncOpts i d kf fd (Some rep)))).
  destruct (encode_json_value_total w o) as [ls El]. exists f0, ls. intros fuel Hf.
  unfold encode_lines, prepare. cbv zeta. fold o. cbn [o resolve_encode_options ro_replacer eo_replacer unwrap_or].
  rewrite (apply_mono _ _ _ _ _ Hf E). exact El.
Qed.
Print Assumptions C30_ranked_replacement_terminates.

(** In particular for replacers that never answer with something nested more deeply than what they
    were given, at least from some depth on, however they grow before it. *)
Theorem C30_replacement_terminates :
  forall (v : json) (rep : replacer) (limit : nat) i d kf fd,
    (forall k x p y, limit <= length p -> rep k x p = Some y -> nesting y <= nesting x) ->
    exists (f0 : nat) (ls : list str), forall fuel, f0 <= fuel ->
      encode_lines fuel v (Some (EncOpts i d kf fd (Some rep))) = Ok ls.
Proof.
  intros v rep limit i d kf fd H.
  apply C30_ranked_replacement_terminates with
    (rank := fun path x => (limit - length path, nesting x)) (R := slexprod nat nat lt lt).
  { apply wf_slexprod; apply lt_wf. }
  intros path x k s c y n Hc Ey Hn. rewrite (norm_is _ _ Hn), norm_nesting. rewrite app_length. cbn [length].
  destruct (Nat.ltb_spec (length path) limit) as [Hl|Hl].
  - left. lia.
  - replace (limit - (length path + 1)) with (limit - length path) by lia. right.
    apply H in Ey; [|rewrite app_length; cbn; lia]. apply child_nesting in Hc. lia.
Qed.
Print Assumptions C30_replacement_terminates.

(** The answers of [nester] reach every depth; those of a replacer that keeps everything only that of
    the value: [[null]] has two levels below it, not three. *)
Example C30_deep_case :
  (forall d, deep_root nester d (JPrim PNull)) /\
  deep_root (fun _ x _ => Some x) 2 (JArr [JArr [JPrim PNull]]) /\
  ~ deep_root (fun _ x _ => Some x) 3 (JArr [JArr [JPrim PNull]]).
Proof.
  assert (N : forall p, norm_json (JPrim PNull) p <-> p = JPrim PNull).
  { intros p. split; [intros H; rewrite (norm_is _ _ H); reflexivity|intros ->; apply (normalize_spec (JPrim PNull))]. }
  split; [|split].
  - intros d. eapply dr_new; [reflexivity|apply (normalize_spec (JArr [JPrim PNull]))|].
    change (normalize_json_value (JArr [JPrim PNull])) with (JArr [JPrim PNull]). generalize (@nil path_segment).
    induction d; intros path; [constructor|]. eapply dp_below with (s := PSIndex 0);
      [apply ch_arr with (i := 0); reflexivity|reflexivity|apply (normalize_spec (JArr [JPrim PNull]))|apply IHd].
  - apply apply_deep. vm_compute. reflexivity.
  - rewrite <- apply_deep. vm_compute. discriminate.
Qed.

(** A replacer that nests every leaf above the fourth level. *)
Definition nester3 : replacer := fun _ x p =>
  match x with JPrim q => if length p <? 3 then Some (JArr [JPrim q; JPrim q]) else Some x | _ => Some x end.
Example C30_case :
  (forall k x p y, 3 <= length p -> nester3 k x p = Some y -> nesting y <= nesting x) /\
  encode 10 (JArr [JPrim PNull]) (Some (EncOpts None None None None (Some nester3))) = Ok (lit "[1]:
  - [2]:
    - [2]: null,null
    - [2]: null,null").
Proof.
  split; [|vm_compute; reflexivity]. intros k x p y Hp. unfold nester3.
  destruct (Nat.ltb_spec (length p) 3); [lia|]. destruct x; intros E; injection E as <-; auto.
Qed.
