(** Replacers with a state of their own: C58. *)
From Verif Require Import Chars Floats Json JsonInd JsonEq Shared EncPrim Normalize Folding Encoders Replacer EncodeApi
  ReplacerState Fixtures Spec SpecReplace SpecAsk NumProof PrimProof EncTotal WrittenProps ReplaceProof AskProof PropsReplace.

Local Open Scope nat_scope.

(** The result, and the state the replacer is left in, are those of a conversation ([asked_root]) whose
    answers are the replacer's own, each given in the state that the one before it has left. *)
Theorem C58_conversation :
  forall (A : Type) (rep : A -> str -> json -> list path_segment -> A * option json) (s s' : A) (v n : json) i d kf fd,
    norm_json v n ->
    (forall fuel ls, encode_lines_state fuel rep s v (Some (EncOpts i d kf fd None)) = Ok (s', ls) ->
       exists qs w, asked_root n qs w /\ answers rep s qs s' /\ encode_lines 0 w (Some (EncOpts i d kf fd None)) = Ok ls) /\
    (forall fuel evs, encode_stream_events_state fuel rep s v (Some (EncOpts i d kf fd None)) = Ok (s', evs) ->
       exists qs w, asked_root n qs w /\ answers rep s qs s' /\ encode_stream_events 0 w (Some (EncOpts i d kf fd None)) = Ok evs) /\
    (forall qs w, asked_root n qs w -> answers rep s qs s' ->
       exists f0, forall fuel, f0 <= fuel ->
         (exists ls, encode_lines_state fuel rep s v (Some (EncOpts i d kf fd None)) = Ok (s', ls) /\
            encode_lines 0 w (Some (EncOpts i d kf fd None)) = Ok ls) /\
         (exists evs, encode_stream_events_state fuel rep s v (Some (EncOpts i d kf fd None)) = Ok (s', evs) /\
            encode_stream_events 0 w (Some (EncOpts i d kf fd None)) = Ok evs)).
Proof.
  intros A rep s s' v n i d kf fd Hn. rewrite (norm_is _ _ Hn).
  assert (Hc : canonical (normalize_json_value v)) by (eapply norm_canonical, normalize_spec).
  assert (P : forall w, canonical w -> prepare 0 w (resolve_encode_options (Some (EncOpts i d kf fd None))) = Ok w).
  { intros w Hw. unfold prepare. cbn [resolve_encode_options ro_replacer eo_replacer unwrap_or]. now rewrite normalize_canonical. }
  unfold encode_lines_state, encode_stream_events_state, encode_lines, encode_stream_events. cbv zeta. split; [|split].
  - intros fuel ls E. destruct (apply_replacer_state _ _ _ _) as [[s1 w]|] eqn:Ea; [|discriminate].
    destruct (encode_json_value w _) as [ls'|] eqn:El; [|discriminate]. cbn [bind] in E. injection E as -> ->.
    apply apply_state_sound in Ea as (qs & Hq & Ha). exists qs, w. split; auto. split; auto.
    rewrite P by eauto using asked_root_canonical. exact El.
  - intros fuel evs E. destruct (apply_replacer_state _ _ _ _) as [[s1 w]|] eqn:Ea; [|discriminate]. injection E as -> <-.
    apply apply_state_sound in Ea as (qs & Hq & Ha). exists qs, w. split; auto. split; auto.
    rewrite P by eauto using asked_root_canonical. reflexivity.
  - intros qs w Hq Ha. destruct (apply_state_complete rep _ _ _ _ _ Hq Ha) as [f0 Hf]. exists f0. intros fuel Hl.
    rewrite Hf, P by eauto using asked_root_canonical. cbn [bind]. split; [|eauto].
    destruct (encode_json_value_total w (resolve_encode_options (Some (EncOpts i d kf fd None)))) as [ls El]. exists ls.
    rewrite El. auto.
Qed.
Print Assumptions C58_conversation.

(** There is only one such conversation for a replacer and its first state. *)
Theorem C58_one_conversation :
  forall (A : Type) (rep : A -> str -> json -> list path_segment -> A * option json) (s a b : A) (n w w' : json) qs qs',
    asked_root n qs w -> answers rep s qs a -> asked_root n qs' w' -> answers rep s qs' b ->
    qs = qs' /\ w = w' /\ a = b.
Proof.
  intros A rep s a b n w w' qs qs' Hq Ha Hq' Hb. destruct (asked_root_part _ _ _ _ _ Hq Hq') as [[-> ->]|H].
  - split; auto. split; auto. eapply answers_fun; eauto.
  - exfalso. eapply answers_apart; eauto.
Qed.
Print Assumptions C58_one_conversation.

(** What is asked depends on nothing but the value and the answers so far: two conversations about
    the same value are equal, with equal results, or the same up to a question that is answered
    differently. *)
Theorem C58_questions_follow_answers :
  forall (n w w' : json) (qs qs' : list ask),
    asked_root n qs w -> asked_root n qs' w' -> (qs = qs' /\ w = w') \/ part qs qs'.
Proof. intros. eapply asked_root_part; eauto. Qed.
Print Assumptions C58_questions_follow_answers.

(** No position is asked for twice, unless a key is repeated in an object. *)
Theorem C58_each_position_once :
  forall (v n w : json) (qs : list ask),
    norm_json v n -> distinct_keys v -> asked_root n qs w -> Forall answer_distinct qs ->
    NoDup (map ask_path qs).
Proof. intros. eapply asked_root_paths; eauto using norm_distinct. Qed.
Print Assumptions C58_each_position_once.

(** A replacer that only looks (it answers with the value it is asked about) leaves the output as it
    is without a replacer, and its last state comes from looking at the whole value and then at each
    position of it, in document order. *)
Lemma answers_seen {A} (rep : A -> str -> json -> list path_segment -> A * option json) (look : A -> str -> json -> list path_segment -> A) l :
  (forall s k x p, rep s k x p = (look s k x p, Some x)) -> forall s,
  answers rep s (map seen l) (fold_left (fun s x => look s (fst (fst x)) (snd (fst x)) (snd x)) l s).
Proof. intros H. induction l as [|[[k x] p] l IH]; intros s; [constructor|]. econstructor; [apply H|apply IH]. Qed.
Theorem C58_observer :
  forall (A : Type) (look : A -> str -> json -> list path_segment -> A) (s : A) (v n : json) i d kf fd,
    norm_json v n ->
    exists f0 : nat, forall fuel, f0 <= fuel ->
      let s' := fold_left (fun s x => look s (fst (fst x)) (snd (fst x)) (snd x)) (([], n, []) :: positions [] n) s in
      exists ls, encode_lines 0 v (Some (EncOpts i d kf fd None)) = Ok ls /\
        encode_lines_state fuel (fun s k x p => (look s k x p, Some x)) s v (Some (EncOpts i d kf fd None)) = Ok (s', ls).
Proof.
  intros A look s v n i d kf fd Hn. assert (Hc : canonical n) by eauto using norm_canonical.
  set (rep := fun s k x p => (look s k x p, Some x)).
  destruct (C58_conversation A rep s (fold_left (fun s x => look s (fst (fst x)) (snd (fst x)) (snd x)) (([], n, []) :: positions [] n) s)
              v n i d kf fd Hn) as (_ & _ & H).
  destruct (H _ _ (asked_root_seen n Hc)) as [f0 Hf]; [apply answers_seen; reflexivity|].
  exists f0. intros fuel Hl. destruct (Hf fuel Hl) as [(ls & E1 & E2) _]. exists ls. split; [|exact E1].
  rewrite <- E2. unfold encode_lines, prepare. cbv zeta. cbn [resolve_encode_options ro_replacer eo_replacer unwrap_or].
  rewrite (norm_is _ _ Hn). rewrite (normalize_canonical (normalize_json_value v)); [auto|]. now rewrite <- (norm_is _ _ Hn).
Qed.
Print Assumptions C58_observer.

(** These positions are all that a value has below its root: a value [y] at some path and something
    directly inside it, under its key or (decimal) index. *)
Theorem C58_positions :
  forall (n : json) (k : str) (x : json) (p : list path_segment),
    In (k, x, p) (positions [] n) <-> exists q g y, p = q ++ [g] /\ stands n q y /\ child y k g x.
Proof. intros. apply (positions_stand n []). Qed.
Print Assumptions C58_positions.

(** It ends whenever the answers are not nested more deeply than what was asked about, at least from
    some depth on, whatever else the replacer does with its state. *)
Theorem C58_terminates :
  forall (A : Type) (rep : A -> str -> json -> list path_segment -> A * option json) (limit : nat) (s : A) (v : json) i d kf fd,
    (forall s k x p s1 y, limit <= length p -> rep s k x p = (s1, Some y) -> nesting y <= nesting x) ->
    exists (f0 : nat) (s' : A) (ls : list str), forall fuel, f0 <= fuel ->
      encode_lines_state fuel rep s v (Some (EncOpts i d kf fd None)) = Ok (s', ls).
Proof.
  intros A rep limit s v i d kf fd H. destruct (ends_root rep limit H (normalize_json_value v) s) as (qs & w & s' & Hq & Ha).
  destruct (C58_conversation A rep s s' v _ i d kf fd (normalize_spec v)) as (_ & _ & C). destruct (C qs w Hq Ha) as [f0 Hf].
  destruct (Hf f0 (le_n _)) as [(ls & _ & El) _]. exists f0, s', ls. intros fuel Hl.
  destruct (Hf fuel Hl) as [(ls' & E & El') _]. rewrite E. congruence.
Qed.
Print Assumptions C58_terminates.

(** A replacer without state: the same as in C28-C30. *)
Theorem C58_stateless :
  forall (A : Type) (rep : replacer) (s : A) (v : json) (fuel : nat) i d kf fd,
    encode_lines_state fuel (fun s k x p => (s, rep k x p)) s v (Some (EncOpts i d kf fd None))
    = (let? ls := encode_lines fuel v (Some (EncOpts i d kf fd (Some rep))) in Ok (s, ls)) /\
    encode_stream_events_state fuel (fun s k x p => (s, rep k x p)) s v (Some (EncOpts i d kf fd None))
    = (let? evs := encode_stream_events fuel v (Some (EncOpts i d kf fd (Some rep))) in Ok (s, evs)).
Proof.
  intros A rep s v fuel i d kf fd. unfold encode_lines_state, encode_stream_events_state, encode_lines, encode_stream_events, prepare. cbv zeta.
  cbn [resolve_encode_options ro_replacer eo_replacer unwrap_or].
  assert (X : apply_replacer_state fuel (fun s k x p => (s, rep k x p)) s (normalize_json_value v)
              = option_map (pair s) (apply_replacer fuel (normalize_json_value v) rep)).
  { unfold apply_replacer_state, apply_replacer. destruct (rep _ _ _); apply stateless_state. }
  rewrite X. destruct (apply_replacer _ _ _) as [w|]; cbn [option_map bind]; [|auto]. split; [|reflexivity].
  f_equal. apply encode_value_same.
Qed.
Print Assumptions C58_stateless.

(** A replacer that counts: it numbers the leaves, and removes every third thing it is asked about. *)
Definition counting (s : nat) (_ : str) (x : json) (_ : list path_segment) : nat * option json :=
  (S s, if Nat.eqb (Nat.modulo s 3) 2 then None
        else Some (match x with JPrim _ => JPrim (PStr (dec_of_N (N.of_nat s))) | _ => x end)).
Example C58_case :
  let v := JObj [(lit "a", JArr [JPrim PNull; JPrim PNull; JPrim PNull]); (lit "b", JObj [(lit "c", JPrim PNull)])] in
  (let? x := encode_lines_state 5 counting 0 v None in Ok (fst x, join cLF (snd x)))
  = Ok (6, lit "a[2]: ""3"",""4""").
Proof. vm_compute. reflexivity. Qed.

(** A log kept by a replacer that only looks. *)
Example C58_observer_case :
  let v := JObj [(lit "a", JArr [JPrim PNull; jnum (lit "-0")]); (lit "b", JPrim PNull)] in
  let look := fun (s : list (list path_segment)) (_ : str) (_ : json) p => s ++ [p] in
  (let? x := encode_lines_state 5 (fun s k x p => (look s k x p, Some x)) [] v None in Ok (fst x, join cLF (snd x)))
  = Ok ([[]; [PSKey (lit "a")]; [PSKey (lit "a"); PSIndex 0]; [PSKey (lit "a"); PSIndex 1]; [PSKey (lit "b")]],
        lit "a[2]: null,0
b: null").
Proof. vm_compute. reflexivity. Qed.
(** The conversation of [counting] is as said, and with a repeated key a position is asked for twice. *)
Example C58_once_case :
  exists qs w, asked_root (JObj [(lit "a", JPrim PNull); (lit "a", JPrim PNull)]) qs w /\ ~ NoDup (map ask_path qs).
Proof.
  eexists _, _. split; [apply (asked_root_seen (JObj [(lit "a", JPrim PNull); (lit "a", JPrim PNull)])); repeat constructor|].
  cbn. intros H. inversion H as [|? ? _ H1]; subst. inversion H1 as [|? ? H2 _]; subst. apply H2. now left.
Qed.
