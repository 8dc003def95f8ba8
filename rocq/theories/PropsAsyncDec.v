(** C32, C33: the asynchronous decoder stream. *)
From Verif Require Import Chars Floats Json JsonInd Shared EncPrim Normalize Folding Encoders Replacer EncodeApi
  Scanner Parser DecValidation Decoders EventBuilder Expand DecodeApi AsyncDecode Fixtures Lex NumProof PrimProof Spec ParseProof
  DecRel DecProps DecRelax Layout LayEnc LayFacts WrittenProps Checkers RoundTrip AsyncDecProof.

Local Open Scope nat_scope.

(** ** Specification *)

(** A consumer of the stream sees [evs] and then the end, for ever. *)
Definition polled (lines : list str) (o : option dstream_options) (evs : list event) : Prop :=
  forall n, nth_poll n (adec_new lines o) = Some (option_map Ok (nth_error evs n)).

(** A line that can only be a member of the outermost object. *)
Definition member_line (raw : str) : Prop :=
  all_ws raw \/
  (starts_with cSPACE raw = false /\ starts_with cLBRACK (trim_start raw) = false /\ starts_with_str LIST_ITEM_PREFIX raw = false).
(** The line's key is quoted, or has no quote before its colon. *)
Definition clear_key (raw : str) : Prop :=
  starts_with cDQ raw = true \/ exists k r, raw = k ++ cCOLON :: r /\ ~ In cCOLON k /\ ~ In cDQ k.
Definition first_line (lines : list str) (P : str -> Prop) : Prop :=
  forall pre l post, lines = pre ++ l :: post -> Forall all_ws pre -> ~ all_ws l -> P l.

Definition primitive_members (kvs : list (str * bool * prim)) : list event :=
  flat_map (fun '(k, q, p) => [EvKey k q; EvPrim p]) kvs.

(** ** C32 *)

Lemma nonblank_all_ws raw : nonblank raw = false <-> all_ws raw.
Proof. rewrite all_ws_forallb. unfold nonblank. now rewrite negb_false_iff. Qed.

(** A document that is an array or a primitive. *)
Theorem C32_arrays_and_primitives_agree :
  forall (lines : list str) (o : option dstream_options) (evs : list event),
    decode_stream_sync lines o = Ok evs -> hd_error evs <> Some EvStartObject -> polled lines o evs.
Proof.
  intros lines o evs E Hh. destruct (fresh_scans _ _ _ E) as (pls & Hs & Hraw & _ & c & Hr). inversion Hr; subst.
  - now destruct Hh.
  - eapply (open_array o); eauto using fresh_new.
    + unfold is_header_line. now rewrite H, H0.
    + rewrite Hraw. apply stream_filter in E. cbn [adec_new ad_options].
      destruct o; [exact E|]. exact E.
    + match goal with A : arr_rel _ _ _ _ _ _ _ |- _ => inversion A; subst; discriminate end.
  - eapply (open_prim o); eauto using fresh_new.
    + unfold is_header_line. destruct H as [H|H]; [now rewrite H|]. destruct (is_array_header_content _); auto. now rewrite H.
    + destruct (async_is_key_value_line (pl_content first)) eqn:Ea; auto. apply async_sync_kv in Ea. congruence.
  - now destruct Hh.
Qed.
Print Assumptions C32_arrays_and_primitives_agree.

Definition num (s : string) : prim := PNum (unwrap_or (parse_f64 (lit s)) f64_nan).

Example C32_array_case :
  polled (map lit ["[2]{id,name}:"%string; "  1,Ada"%string; "  2,Bob"%string]) None
    [EvStartArray 2; EvStartObject; EvKey (lit "id") false; EvPrim (num "1"); EvKey (lit "name") false; EvPrim (PStr (lit "Ada"));
     EvEndObject; EvStartObject; EvKey (lit "id") false; EvPrim (num "2"); EvKey (lit "name") false; EvPrim (PStr (lit "Bob"));
     EvEndObject; EvEndArray].
Proof. apply C32_arrays_and_primitives_agree; [vm_compute; reflexivity|discriminate]. Qed.

Lemma member_scan ind lines : forall n, Forall member_line lines ->
  Forall (fun l => flat_line l /\ pl_content l = pl_raw l) (fst (scan_from n ind lines)).
Proof.
  induction lines as [|raw lines IH]; intros n H; cbn [scan_from]; [constructor|]. inversion H as [|? ? Hm Hms]; subst.
  specialize (IH (S n) Hms). destruct (scan_from (S n) ind lines) as [ls bs]. destruct (nonblank raw) eqn:Eb; auto.
  constructor; auto. destruct Hm as [Hm|(H1 & H2 & H3)]; [apply nonblank_all_ws in Hm; congruence|].
  assert (Hc : count_spaces raw = 0).
  { destruct raw as [|c raw]; auto. cbn [starts_with] in H1. cbn [count_spaces]. now rewrite H1. }
  unfold flat_line, scan_line. cbn [pl_depth pl_content pl_raw]. rewrite Hc. cbn [skipn]. repeat split; auto.
  unfold compute_depth_from_indent. destruct ind; auto.
Qed.
Lemma first_scan ind lines P : forall n l ls, first_line lines P -> fst (scan_from n ind lines) = l :: ls -> P (pl_raw l).
Proof.
  induction lines as [|raw lines IH]; intros n l ls H; cbn [scan_from]; [discriminate|]. specialize (IH (S n)).
  destruct (scan_from (S n) ind lines) as [ls0 bs]. destruct (nonblank raw) eqn:Eb; cbn [fst] in *.
  - intros E. injection E as <- <-. cbn [pl_raw scan_line]. apply (H [] raw lines); auto. intros Hw. apply nonblank_all_ws in Hw. congruence.
  - apply IH. intros pre x post -> Hp Hx. apply (H (raw :: pre) x post); auto. constructor; auto. now apply nonblank_all_ws.
Qed.
Lemma kv_nonempty cx content c d evs c' : kv_rel cx content c d evs c' -> evs <> [].
Proof. intros H. inversion H; discriminate. Qed.
Lemma members_leaf kvs : Forall leaf_event (primitive_members kvs).
Proof. induction kvs as [|[[k q] p] kvs IH]; cbn; auto. repeat constructor; auto. Qed.

(** A document that is an object with primitive members only. *)
Theorem C32_flat_objects_agree :
  forall (lines : list str) (o : option dstream_options) (kvs : list (str * bool * prim)),
    Forall member_line lines -> first_line lines clear_key ->
    decode_stream_sync lines o = Ok (EvStartObject :: primitive_members kvs ++ [EvEndObject]) ->
    polled lines o (EvStartObject :: primitive_members kvs ++ [EvEndObject]).
Proof.
  intros lines o kvs Hm Hf E. destruct (fresh_scans _ _ _ E) as (pls & Hs & Hraw & Hpls & c & Hr).
  pose proof (member_scan (opt_indent o) lines 0 Hm) as Hfl. rewrite <- Hpls in Hfl.
  pose proof (members_leaf kvs) as Hl. remember (primitive_members kvs) as body eqn:Ebody. clear Ebody.
  remember (EvStartObject :: body ++ [EvEndObject]) as evs eqn:Ee. destruct Hr as [|first rest h iv evs c' H1 H2 A| |first rest e1 c1 e2 c2 Hn Hor Hkv Hrf].
  - assert (body = []) as ->. { injection Ee as Ee. destruct body as [|? [|]]; auto; discriminate. }
    subst. apply (yields_blank o); [apply fresh_new|]. cbn [adec_new ad_lines].
    clear - Hraw. induction lines as [|raw lines IH]; constructor; cbn [filter map] in *; destruct (nonblank raw); auto; discriminate.
  - inversion A; subst; discriminate.
  - discriminate.
  - injection Ee as Ee. rewrite app_assoc in Ee. apply app_inj_tail in Ee as [Ee _]. subst body.
    eapply (open_flat o); eauto using fresh_new.
    + revert Hfl. apply Forall_impl. tauto.
    + inversion Hfl as [|? ? [_ Hc] _]; subst. rewrite Hc. symmetry in Hpls. exact (first_scan _ _ clear_key _ _ _ Hf Hpls).
Qed.
Print Assumptions C32_flat_objects_agree.

Example C32_flat_case :
  polled (map lit ["name: Ada"%string; ""%string; "age: 36"%string; """odd key"": [x]"%string]) None
    (EvStartObject :: primitive_members [(lit "name", false, PStr (lit "Ada")); (lit "age", false, num "36");
                                         (lit "odd key", true, PStr (lit "[x]"))] ++ [EvEndObject]).
Proof.
  apply C32_flat_objects_agree.
  - repeat constructor; (left; apply all_ws_forallb; reflexivity) || (right; repeat split; reflexivity).
  - intros [|x pre] l post E Hp Hl.
    + injection E as <- _. right. exists (lit "name"), (lit " Ada"). split; [reflexivity|].
      split; intros H; apply contains_In in H; discriminate.
    + injection E as <- _. inversion Hp as [|? ? H]; subst. apply all_ws_forallb in H. discriminate.
  - vm_compute. reflexivity.
Qed.

(** Every document the encoder writes for an array, a primitive or an object of primitives. *)
Definition shallow_value (v : json) : Prop :=
  match v with
  | JObj l => Forall (fun kv => exists p, snd kv = JPrim p) l
  | _ => True
  end.

Lemma flat_written l sibs m : written_fields false sibs l m -> Forall (fun kv => exists p, snd kv = JPrim p) l ->
  Forall (fun kv => exists p, snd kv = JPrim p) m.
Proof.
  induction 1 as [|? ? ? ? ? Hf ? IH]; intros HH; auto. inversion HH as [|? ? [p Hp] Hl]; subst. constructor; auto.
  destruct Hf as [sibs k v w Hw|]; [|discriminate]. cbn [snd] in *. subst v. inversion Hw; subst. eauto.
Qed.
Lemma flat_layout dl l : forall abs, lay_fields True dl 0 l abs -> Forall (fun kv => exists p, snd kv = JPrim p) l ->
  Forall (fun a => exists k r, a = (0, encode_key k ++ cCOLON :: r)) abs.
Proof.
  induction l as [|[k v] l IH]; intros abs H Hl; inversion H as [|d kv l0 a b Ha Hb]; subst; auto. inversion Hl as [|? ? [p Hp] Hl']; subst.
  cbn [snd] in Hp. subst v. inversion Ha; subst. constructor; auto. eexists _, _. reflexivity.
Qed.
Lemma flat_events l : Forall (fun kv : str * json => exists p, snd kv = JPrim p) l ->
  exists kvs, emit_events (JObj l) = EvStartObject :: primitive_members kvs ++ [EvEndObject].
Proof.
  intros H. induction H as [|[k v] l [p Hp] _ (kvs & IH)]; [now exists []|]. cbn [snd] in Hp. subst v.
  exists ((k, negb (is_valid_unquoted_key k), p) :: kvs). cbn [emit_events flat_map] in *. injection IH as IH.
  cbn [primitive_members flat_map fst snd app]. cbn [fst snd] in IH. f_equal. f_equal. cbn [emit_events app]. f_equal. exact IH.
Qed.
Lemma valid_key_plain k : is_valid_unquoted_key k = true -> ~ In cCOLON k /\ ~ In cDQ k.
Proof. intros H. split; apply (valid_key_not_in k); auto. Qed.
Lemma key_clear k r : clear_key (encode_key k ++ cCOLON :: r).
Proof.
  destruct (is_valid_unquoted_key k) eqn:E.
  - right. rewrite encode_key_plain by auto. exists k, r. split; auto. now apply valid_key_plain.
  - left. rewrite starts_with_app by apply encode_key_nonempty. now rewrite starts_with_dq_key, E.
Qed.

Theorem C32_encoder_output_agrees :
  forall (fuel : nat) (v : json) (eo : option encode_options) (strict : bool),
    plain_options eo -> distinct_keys v -> portable v -> shallow_value v ->
    exists ls evs,
      encode_lines fuel v eo = Ok ls /\
      let o := Some (DStreamOpts (Some (ro_indent (resolve_encode_options eo))) (Some strict)) in
      decode_stream_sync ls o = Ok evs /\ polled ls o evs.
Proof.
  intros fuel v eo strict Ho Hk Hp Hv. destruct (encode_layout fuel v eo Ho Hk Hp) as (abs & w & E & L & W).
  destruct Ho as (_ & _ & Hd & Hi).
  assert (D := layout_decodes _ _ w abs strict Hd Hi L).
  eexists _, _. split; [exact E|]. cbv zeta. split; [exact D|]. destruct v as [p|l|l]; cbn [normalize_json_value] in W.
  - apply C32_arrays_and_primitives_agree; auto. inversion W; subst. discriminate.
  - apply C32_arrays_and_primitives_agree; auto. inversion W; subst; discriminate.
  - cbn [shallow_value] in Hv. inversion W; subst.
    match goal with H : written_fields _ _ _ _ |- _ => apply flat_written in H end.
    2: { clear - Hv. induction Hv as [|[k v] l [p Hp]]; cbn [map]; constructor; auto. cbn [snd] in *. subst. cbn. eauto. }
    inversion L; subst. match goal with F : Forall _ m, H : lay_fields _ _ _ _ _ |- _ => pose proof (flat_layout _ _ _ H F) as Hlines;
      destruct (flat_events m F) as (kvs & Ek) end.
    rewrite Ek in *. apply C32_flat_objects_agree; auto.
    + apply Forall_map. revert Hlines. apply Forall_impl. intros a (k & r & ->). right. unfold render, indented_line. cbn [fst snd].
      destruct (encode_key_first k (cCOLON :: r)) as (c & t & Ec & Hws). 
      rewrite Nat.mul_0_r. change (spaces 0 ++ encode_key k ++ cCOLON :: r) with (encode_key k ++ cCOLON :: r).
      rewrite trim_start_key, key_not_lbrack. split; [|split; [reflexivity|apply key_not_list_item]].
      rewrite Ec. cbn [starts_with]. apply N.eqb_neq. intros ->. discriminate.
    + intros pre x post Ex _ _. assert (Hx : In x (pre ++ x :: post)) by (apply in_or_app; right; now left). rewrite <- Ex in Hx.
      apply in_map_iff in Hx as (a & <- & Ha). rewrite Forall_forall in Hlines. destruct (Hlines a Ha) as (k & r & ->).
      unfold render, indented_line. cbn [fst snd]. rewrite Nat.mul_0_r. apply key_clear.
Qed.
Print Assumptions C32_encoder_output_agrees.

(** The case of a table, of an object and of a string. *)
Example C32_encoder_case :
  shallow_value (JObj [(lit "name", JPrim (PStr (lit "Ada"))); (lit "a b", JPrim (PBool true))]) /\
  encode_lines 0 (JObj [(lit "name", JPrim (PStr (lit "Ada"))); (lit "a b", JPrim (PBool true))]) None
    = Ok [lit "name: Ada"; lit """a b"": true"].
Proof. split; [repeat constructor; eexists; reflexivity|vm_compute; reflexivity]. Qed.

(** The whole-document functions of the asynchronous API are the synchronous ones. *)
Theorem C32_async_functions_agree :
  (forall lines o, try_decode_stream_async lines o = decode_stream_sync lines o) /\
  (forall input o, try_decode_async input o = try_decode input o).
Proof. split; reflexivity. Qed.
Print Assumptions C32_async_functions_agree.

(** Polling by computation. *)
Fixpoint drain (fuel : nat) (s : adec) : option (list event) :=
  match fuel with
  | O => None
  | S fuel =>
      match adec_poll s with
      | Some (Some (Ok e), s) => option_map (cons e) (drain fuel s)
      | Some (None, s) => match ad_state s, ad_queue s with SFinished, [] => Some [] | _, _ => None end
      | _ => None
      end
  end.
Lemma drain_yields fuel : forall s evs, inv s -> drain fuel s = Some evs -> yields s evs.
Proof.
  induction fuel as [|fuel IH]; intros s evs Hi H; [discriminate|]. cbn [drain] in H.
  destruct (adec_poll_total s Hi) as (a & s' & E & Hi' & _). rewrite E in H. destruct a as [[e|e]|]; [| discriminate|].
  - destruct (drain fuel s') as [evs'|] eqn:Ed; [|discriminate]. injection H as <-. specialize (IH _ _ Hi' Ed).
    intros [|n]; cbn [nth_poll]; rewrite E; auto. apply IH.
  - destruct (ad_state s') eqn:Es; try discriminate. destruct (ad_queue s') eqn:Eq; [|discriminate]. injection H as <-.
    intros [|n]; cbn [nth_poll]; rewrite E; auto. rewrite finished_polls, Eq by auto. now destruct n.
Qed.
Lemma drain_polled fuel lines o evs : drain fuel (adec_new lines o) = Some evs -> polled lines o evs.
Proof. apply drain_yields, new_inv. Qed.

(** In general the stream and the synchronous decoder differ, also on what the encoder writes: an
    array under a key, a nested object, text after a primitive, blank lines within an array in
    strict mode, a single line that looks like a list item. *)
Theorem C32_stream_agrees_refuted :
  (exists v ls evs, encode_lines 0 v None = Ok ls /\ decode_stream_sync ls None = Ok evs /\
     polled ls None [EvStartObject; EvKey (lit "tags[2]") false; EvPrim (PStr (lit "a,b")); EvEndObject] /\ ~ polled ls None evs) /\
  (exists v ls evs evs', encode_lines 0 v None = Ok ls /\ decode_stream_sync ls None = Ok evs /\ polled ls None evs' /\
     (exists e, build_node_from_events evs' = Err e)) /\
  (exists ls e, decode_stream_sync ls None = Err e /\ polled ls None [EvPrim (PStr (lit "hello"))]) /\
  (exists ls e evs, decode_stream_sync ls None = Err e /\ polled ls None evs) /\
  (exists ls evs, decode_stream_sync ls None = Ok evs /\ hd_error evs = Some EvStartObject /\
     polled ls None [EvPrim (PStr (lit "- a: 1"))]).
Proof.
  split; [|split; [|split; [|split]]].
  - eexists (JObj [(lit "tags", JArr [JPrim (PStr (lit "a")); JPrim (PStr (lit "b"))])]), _, _.
    split; [vm_compute; reflexivity|]. split; [vm_compute; reflexivity|].
    split; [apply (drain_polled 9); vm_compute; reflexivity|]. intros H. specialize (H 1). vm_compute in H. discriminate.
  - eexists (JObj [(lit "a", JObj [(lit "b", JPrim PNull)])]), _, _, _.
    split; [vm_compute; reflexivity|]. split; [vm_compute; reflexivity|].
    split; [apply (drain_polled 9); vm_compute; reflexivity|]. eexists. vm_compute. reflexivity.
  - exists (map lit ["hello"%string; "world"%string]). eexists. split; [vm_compute; reflexivity|apply (drain_polled 9); vm_compute; reflexivity].
  - exists (map lit ["[2]:"%string; "  - 1"%string; ""%string; "  - 2"%string]). eexists _, _.
    split; [vm_compute; reflexivity|apply (drain_polled 19); vm_compute; reflexivity].
  - exists (map lit ["- a: 1"%string]). eexists. split; [vm_compute; reflexivity|]. split; [reflexivity|].
    apply (drain_polled 9); vm_compute; reflexivity.
Qed.
Print Assumptions C32_stream_agrees_refuted.

(** ** C33 *)

(** A document whose decoding fails at its end makes the stream answer with an error for ever. *)
Theorem C33_stream_ends_refuted :
  exists (lines : list str) (e : err), forall n, nth_poll n (adec_new lines None) = Some (Some (Err e)).
Proof.
  assert (E : exists s e, adec_poll (adec_new [lit "[2]: 1"] None) = Some (Some (Err e), s) /\ stuck s e).
  { eexists _, _. split; [vm_compute; reflexivity|]. unfold stuck, finished. cbn [ad_queue ad_state ad_exhausted ad_lines].
    repeat split; discriminate. }
  destruct E as (s & e & E & Hs). exists [lit "[2]: 1"], e.
  intros [|n]; cbn [nth_poll]; rewrite E; [reflexivity|now apply stuck_polls].
Qed.
Print Assumptions C33_stream_ends_refuted.

(** Every poll answers; from some poll on the stream is at its end, or gives one and the same error. *)
Theorem C33_polls_answer_and_settle :
  forall (lines : list str) (o : option dstream_options),
    (forall n, exists a, nth_poll n (adec_new lines o) = Some a) /\
    exists n0, (forall n, n0 <= n -> nth_poll n (adec_new lines o) = Some None) \/
               (exists e, forall n, n0 <= n -> nth_poll n (adec_new lines o) = Some (Some (Err e))).
Proof.
  intros lines o. split; [|exact (polls_end _ _ (new_inv lines o) (Nat.lt_succ_diag_r _))].
  intros n. generalize (new_inv lines o). generalize (adec_new lines o). induction n as [|n IH]; intros s Hi; cbn [nth_poll];
    destruct (adec_poll_total s Hi) as (a & s' & -> & Hi' & _); eauto.
Qed.
Print Assumptions C33_polls_answer_and_settle.

(** When no poll gives an error the stream ends. *)
Theorem C33_stream_ends :
  forall (lines : list str) (o : option dstream_options),
    (forall n e, nth_poll n (adec_new lines o) <> Some (Some (Err e))) ->
    exists n0, forall n, n0 <= n -> nth_poll n (adec_new lines o) = Some None.
Proof.
  intros lines o H. destruct (C33_polls_answer_and_settle lines o) as [_ (n0 & [Hn|(e & Hn)])]; [eauto|].
  exfalso. exact (H n0 e (Hn n0 (le_n _))).
Qed.
Print Assumptions C33_stream_ends.

(** An error in the middle: the stream goes on after it and ends. *)
Example C33_ends_case :
  let s := adec_new [lit "a: 1"; lit " b: 2"; lit "c: 3"] None in
  nth_poll 3 s = Some (Some (Err (EIndentMultiple 2 2 1))) /\ nth_poll 4 s = Some (Some (Ok (EvKey (lit "c") false))) /\
  nth_poll 6 s = Some (Some (Ok EvEndObject)) /\ nth_poll 7 s = Some None.
Proof. vm_compute. repeat split. Qed.
