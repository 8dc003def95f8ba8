(** Where the primitives of decoded events come from: each is a parsed token or the null of a missing
    cell, so numbers are finite and never negative zero; path expansion moves them around only. *)
From Verif Require Import Chars Floats Json Shared Scanner Parser DecValidation Decoders EventBuilder Expand DecodeApi
  Lex Spec DecRel DecProps ExpandProof ExpandProps JsonInd.

Local Open Scope nat_scope.

Definition token_prim (p : prim) : Prop := p = PNull \/ exists t, parse_primitive_token t = Ok p.
Definition token_event (e : event) : Prop := forall p, e = EvPrim p -> token_prim p.
Notation tokens := (Forall token_event).

Lemma token_skip e : (forall p, e <> EvPrim p) -> token_event e.
Proof. intros H p E. now elim (H p). Qed.
Ltac skip := apply token_skip; discriminate.

Lemma map_result_In {A B} (f : A -> result B) l m x : map_result f l = Ok m -> In x m -> exists a, f a = Ok x.
Proof.
  revert m. induction l as [|a l IH]; intros m H Hx; cbn [map_result] in H.
  - injection H as <-. destruct Hx.
  - inv_bind H. injection H as <-. destruct Hx as [<-|Hx]; [eauto|]. eauto.
Qed.
Lemma row_tokens l m : map_row_values_to_primitives l = Ok m -> Forall token_prim m.
Proof. intros H. apply Forall_forall. intros p Hp. right. eapply map_result_In; eauto. Qed.
Lemma prim_tokens ps : Forall token_prim ps -> tokens (map EvPrim ps).
Proof. induction 1; constructor; auto. intros q E. now injection E as <-. Qed.
Lemma field_tokens fields : forall cells, Forall token_prim cells -> tokens (field_events fields cells).
Proof.
  induction fields as [|f fs IH]; intros cells H; cbn [field_events]; constructor; [skip|]. constructor.
  - intros p E. injection E as <-. destruct H; [now left|auto].
  - apply IH. destruct H; [constructor|auto].
Qed.

Lemma inline_tokens h iv cx evs : decode_inline_primitive_array h iv cx = Ok evs -> tokens evs.
Proof.
  unfold decode_inline_primitive_array. destruct (is_empty (trim iv)).
  - intros H. inv_bind H. injection H as <-. constructor.
  - intros H. cbv zeta in H. inv_bind H. injection H as <-. apply prim_tokens. eapply row_tokens; eauto.
Qed.
Lemma tabular_tokens h fields c d cx evs c' : decode_tabular_array h fields c d cx = Ok (evs, c') -> tokens evs.
Proof.
  intros H. apply decode_tabular_spec in H as (rows & _ & -> & _ & HF).
  induction HF as [|r rows (_ & Hr & _) _ IH]; cbn [flat_map]; [constructor|]. apply Forall_app. split; auto.
  unfold yield_object_from_fields. constructor; [skip|]. apply Forall_app. split.
  - apply field_tokens. eapply row_tokens; eauto.
  - constructor; [skip|constructor].
Qed.

Lemma dec_tokens cx :
  (forall content c d evs c', kv_rel cx content c d evs c' -> tokens evs) /\
  (forall c base computed evs c', of_rel cx c base computed evs c' -> tokens evs) /\
  (forall h iv c d evs c', arr_rel cx h iv c d evs c' -> tokens evs) /\
  (forall c depth len count range evs c' n rg, items_rel cx c depth len count range evs c' n rg -> tokens evs) /\
  (forall line c d evs c', item_rel cx line c d evs c' -> tokens evs) /\
  (forall c d evs c', follow_rel cx c d evs c' -> tokens evs).
Proof.
  apply dec_mutind.
  - intros. constructor; auto. skip.
  - intros. constructor; [skip|]. constructor; [skip|]. apply Forall_app. split; auto. constructor; [skip|constructor].
  - intros. repeat (constructor; [skip|]); constructor.
  - intros content c d key e q p _ _ _ Hp. constructor; [skip|]. constructor; [|constructor].
    intros p' E. injection E as <-. right. eauto.
  - intros. constructor.
  - intros. apply Forall_app. split; auto.
  - intros h iv c d evs H. constructor; [skip|]. apply Forall_app. split; [eapply inline_tokens; eauto|]. constructor; [skip|constructor].
  - intros h f fs c d evs c' _ H. constructor; [skip|]. apply Forall_app. split; [eapply tabular_tokens; eauto|]. constructor; [skip|constructor].
  - intros. constructor; [skip|]. apply Forall_app. split; auto. constructor; [skip|constructor].
  - intros. constructor.
  - intros. apply Forall_app. split; auto.
  - intros. repeat (constructor; [skip|]); constructor.
  - auto.
  - intros. constructor; [skip|]. constructor; [skip|]. apply Forall_app. split; auto. apply Forall_app. split; auto.
    constructor; [skip|constructor].
  - intros. constructor; [skip|]. apply Forall_app. split; auto. apply Forall_app. split; auto. constructor; [skip|constructor].
  - intros line c d p _ _ _ _ _ Hp. constructor; [|constructor]. intros p' E. injection E as <-. right. eauto.
  - intros. constructor.
  - intros. apply Forall_app. split; auto.
Qed.

Lemma root_tokens cx c evs c' : root_fields_rel cx c evs c' -> tokens evs.
Proof.
  induction 1 as [c Hs|c line e1 c1 e2 c2 Hp Hd Hkv Hrf IH]; [constructor|].
  apply Forall_app. split; auto. exact (proj1 (dec_tokens cx) _ _ _ _ _ Hkv).
Qed.
Lemma lines_tokens cx lines evs c' : lines_rel cx lines evs c' -> tokens evs.
Proof.
  intros [|first rest h iv ? ? Hh Hp Ha|first p Hn Hk Hp|first rest e1 c1 e2 c2 Hn Hor Hkv Hrf].
  - repeat (constructor; [skip|]); constructor.
  - exact (proj1 (proj2 (proj2 (dec_tokens cx))) _ _ _ _ _ _ Ha).
  - constructor; [|constructor]. intros p' E. injection E as <-. right. eauto.
  - constructor; [skip|]. apply Forall_app. split; [exact (proj1 (dec_tokens cx) _ _ _ _ _ Hkv)|]. apply Forall_app.
    split; [eapply root_tokens; eauto|]. constructor; [skip|constructor].
Qed.
Theorem stream_tokens source opts evs : decode_stream_sync source opts = Ok evs -> tokens evs.
Proof. intros H. apply stream_lines in H as (lines & st & c & _ & H). eapply lines_tokens; eauto. Qed.

(** * Tokens give JSON numbers *)

Lemma numeric_finite t : is_numeric_literal t = true -> exists x, parse_f64 (trim t) = Some x /\ f64_is_finite x = true.
Proof.
  unfold is_numeric_literal. cbv zeta. intros H. destruct (trim t) as [|c r]; [discriminate|].
  destruct (if (c =? cMINUS)%N then r else c :: r) as [|d b]; [discriminate|].
  match type of H with match ?x with _ => _ end = _ => destruct x; [|discriminate] end.
  apply andb_prop in H as [_ H]. destruct (parse_f64 (c :: r)) as [x|]; [|discriminate]. eauto.
Qed.
Lemma token_json_prim p : token_prim p -> json_prim p.
Proof.
  intros [->|[t H]]; [exact I|]. unfold parse_primitive_token in H. cbv zeta in H.
  destruct (is_empty (trim t)); [injection H as <-; exact I|].
  destruct (starts_with cDQ (trim t)); [inv_bind H; injection H as <-; exact I|].
  destruct (is_boolean_or_null_literal (trim t)).
  { injection H as <-. destruct (str_eqb _ _); [exact I|]. destruct (str_eqb _ _); exact I. }
  destruct (is_numeric_literal (trim t)) eqn:En; [|injection H as <-; exact I].
  injection H as <-. apply numeric_finite in En as (x & Ex & Hf). rewrite trim_idem in Ex. rewrite Ex. cbn [unwrap_or json_prim].
  destruct (f64_is_neg_zero x) eqn:Ez; split; auto; [discriminate|].
  intros E. unfold f64_is_neg_zero in Ez. now rewrite E in Ez.
Qed.

Lemma describes_canonical P :
  (forall e v, describes P e v -> tokens e -> canonical v) /\
  (forall e l, describes_items P e l -> tokens e -> Forall canonical l) /\
  (forall e l, describes_entries P e l -> tokens e -> Forall (fun kv => canonical (snd kv)) l).
Proof.
  apply describes_mutind.
  - intros p H. constructor. apply token_json_prim. inversion H; subst. auto.
  - intros n e l _ IH _ H. constructor. apply IH. inversion H as [|? ? _ H1]; subst. now apply Forall_app in H1 as [H1 _].
  - intros e l _ IH H. constructor. apply IH. inversion H as [|? ? _ H1]; subst. now apply Forall_app in H1 as [H1 _].
  - constructor.
  - intros e1 v e2 l _ IH1 _ IH2 H. apply Forall_app in H as [H1 H2]. constructor; auto.
  - constructor.
  - intros k q e1 v e2 l _ IH1 _ IH2 H. inversion H as [|? ? _ H1]; subst. apply Forall_app in H1 as [H1 H2]. constructor; auto.
Qed.

(** * Expansion keeps that *)

Definition can (n : node) : Prop := canonical (node_to_json n).
Definition can_es (es : list (str * node)) : Prop := Forall (fun kv => can (snd kv)) es.

Lemma can_obj es q : can (NObj es q) <-> can_es es.
Proof.
  unfold can, can_es. cbn [node_to_json]. split.
  - intros H. inversion H as [| |? H2]; subst. now rewrite Forall_map in H2.
  - intros H. constructor. now rewrite Forall_map.
Qed.
Lemma can_app es k v : can_es es -> can v -> can_es (es ++ [(k, v)]).
Proof. intros H Hv. apply Forall_app. split; auto. Qed.
Lemma can_set es k v : can_es es -> can v -> can_es (entry_set es k v).
Proof.
  intros H Hv. apply Forall_forall. intros kv Hi.
  apply entry_set_In in Hi as [->|Hi]; auto. exact (proj1 (Forall_forall _ _) H _ Hi).
Qed.
Lemma can_get es k v : can_es es -> entry_get es k = Some v -> can v.
Proof. intros H E. apply entry_get_In in E. exact (proj1 (Forall_forall _ _) H _ E). Qed.
Lemma can_nil : can_es [].
Proof. constructor. Qed.

Lemma merge_can l : forall strict t s m, merge_objects l strict t s = Ok m -> can_es t -> can_es s -> can_es m.
Proof.
  induction l as [|l IH]; intros strict t s m E Ht Hs; [discriminate|]. rewrite merge_objects_S in E.
  revert t m E Ht. induction s as [|[k v] r IHs]; intros t m E Ht; cbn [merge_go] in E.
  - now injection E as <-.
  - inversion Hs as [|? ? Hv Hr]; subst. cbn [snd] in Hv. specialize (IHs Hr).
    destruct (entry_get t k) as [[p|items|eo eq]|] eqn:G.
    + destruct strict; [discriminate|]. eapply IHs; eauto. now apply can_set.
    + destruct strict; [discriminate|]. eapply IHs; eauto. now apply can_set.
    + destruct v as [p|items|so sq]; try (destruct strict; [discriminate|]; eapply IHs; eauto; now apply can_set).
      inv_bind E. eapply IHs; eauto. apply can_set; auto. apply can_obj. apply (IH _ _ _ _ E0).
      * apply (can_obj eo eq). eapply can_get; [|exact G]; auto.
      * now apply can_obj in Hv.
    + eapply IHs; eauto. now apply can_app.
Qed.
Lemma insert_literal_can l strict es k v m : insert_literal_entry l strict es k v = Ok m ->
  can_es es -> can v -> can_es m.
Proof.
  destruct l as [|l]; [discriminate|]. cbn [insert_literal_entry]. intros E Hes Hv.
  destruct (entry_get es k) as [[p|items|eo eq]|] eqn:G.
  - destruct strict; [discriminate|]. injection E as <-. now apply can_set.
  - destruct strict; [discriminate|]. injection E as <-. now apply can_set.
  - destruct v as [p|items|so sq]; try (destruct strict; [discriminate|]; injection E as <-; now apply can_set).
    inv_bind E. injection E as <-. apply can_set; auto. apply can_obj. apply (merge_can _ _ _ _ _ E0).
    + apply (can_obj eo eq). eapply can_get; [|exact G]; auto.
    + now apply can_obj in Hv.
  - injection E as <-. now apply can_app.
Qed.
Lemma insert_path_can l : forall strict es segs v m, insert_path_entries l strict es segs v = Ok m ->
  can_es es -> can v -> can_es m.
Proof.
  induction l as [|l IH]; intros strict es segs v m E Hes Hv; [discriminate|]. cbn [insert_path_entries] in E.
  destruct segs as [|k [|k' rest]].
  - now injection E as <-.
  - eapply insert_literal_can; eauto.
  - destruct (entry_get es k) as [[p|items|eo eq]|] eqn:G.
    + destruct strict; [discriminate|]. inv_bind E. injection E as <-. apply can_set; auto. apply can_obj.
      eapply IH; eauto using can_nil.
    + destruct strict; [discriminate|]. inv_bind E. injection E as <-. apply can_set; auto. apply can_obj.
      eapply IH; eauto using can_nil.
    + inv_bind E. injection E as <-. apply can_set; auto. apply can_obj. apply (IH _ _ _ _ _ E0); auto.
      apply (can_obj eo eq). eapply can_get; [|exact G]; auto.
    + inv_bind E. injection E as <-. apply can_app; auto. apply can_obj. eapply IH; eauto using can_nil.
Qed.
Lemma expand_can n : forall l strict v w, l <= n -> expand_inner l strict v = Ok w -> can v -> can w.
Proof.
  induction n as [|n IH]; intros l strict v w Hl E Hv; (destruct l as [|l]; [discriminate|]); [lia|].
  destruct v as [p|items|entries quoted].
  - now injection E as <-.
  - rewrite expand_arr in E. inv_bind E. injection E as <-. apply map_result_Forall2 in E0.
    unfold can in *. cbn [node_to_json] in *. inversion Hv as [|? Hl'|]; subst. rewrite Forall_map in Hl'.
    constructor. apply Forall_map. clear Hv.
    induction E0; inversion Hl'; subst; constructor; auto. eapply (IH l); eauto. lia.
  - destruct l as [|l]; [discriminate|]. rewrite expand_obj in E. inv_bind E. injection E as <-. apply can_obj.
    apply can_obj in Hv. revert E0. pose proof can_nil as Hacc. revert Hacc. generalize (@nil (str * node)).
    induction Hv as [|[k v] r Hv _ IHr]; intros acc Hacc E; cbn [expand_go] in E.
    + now injection E as <-.
    + inv_bind E. eapply IHr; [|exact E]. assert (Hv' : can a0) by (eapply (IH l); eauto; lia).
      unfold insert_entry in E1. destruct (expandable k quoted).
      * eapply insert_path_can; eauto.
      * eapply insert_literal_can; eauto.
Qed.
Lemma expand_safe_can v strict w : expand_paths_safe v strict = Ok w -> can v -> can w.
Proof. unfold expand_paths_safe. apply (expand_can MAX_EXPAND_DEPTH). apply Nat.le_refl. Qed.

Theorem decoded_canonical lines o v : try_decode_from_lines lines o = Ok v -> canonical v.
Proof.
  unfold try_decode_from_lines. cbv zeta. intros H. inv_bind H. injection H as <-.
  pose proof (stream_tokens _ _ _ E) as Ht. destruct (stream_grammar _ _ _ E) as [w Hw].
  pose proof (proj1 (describes_canonical _) _ _ Hw Ht) as Hc.
  apply describes_build in Hw as (n & En & <-). rewrite En in E0. injection E0 as <-.
  destruct (rd_expand (resolve_decode_options o)).
  - now injection E1 as <-.
  - exact (expand_safe_can _ _ _ E1 Hc).
Qed.
