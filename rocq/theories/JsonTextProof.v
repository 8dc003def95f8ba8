(** The JSON text written by the command line tool: what it is, and what it reads back as. *)
From Coq Require Import SpecFloat.
From Verif Require Import Chars Floats Json JsonInd NumProof Scanner Parser DecValidation Decoders EventBuilder Expand DecodeApi
  Spec DecProps JsonText SpecJson JsonNumProof.

(** * One text for both writers, with the string printer as a parameter *)

Section Text.
Variable q : str -> str.
Variable st : num_style.
Variable indent : nat.

Definition ptext (p : prim) : str :=
  match p with
  | PNull => lit "null"
  | PBool b => bool_text b
  | PNum x => unwrap_or (number_text st x) (lit "null")
  | PStr s => q s
  end.
Definition colon : str := match indent with O => lit ":" | S _ => lit ": " end.
Definition list_text {A} (f : A -> str) (br : str) : list A -> str :=
  fix go l := match l with [] => [] | v :: r => br ++ f v ++ comma_unless r ++ go r end.
Fixpoint jtext (depth : nat) (v : json) : str :=
  match v with
  | JPrim p => ptext p
  | JArr l => if is_empty l then lit "[]"
              else cLBRACK :: list_text (jtext (S depth)) (break indent (S depth)) l ++ break indent depth ++ [cRBRACK]
  | JObj l => if is_empty l then lit "{}"
              else cLBRACE :: list_text (fun kv : str * json => let (k, v) := kv in q k ++ colon ++ jtext (S depth) v)
                                (break indent (S depth)) l ++ break indent depth ++ [cRBRACE]
  end.
Definition mtext (depth : nat) (kv : str * json) : str := q (fst kv) ++ colon ++ jtext depth (snd kv).

Lemma list_text_ext {A} (f g : A -> str) br l : Forall (fun x => f x = g x) l -> list_text f br l = list_text g br l.
Proof. induction 1 as [|x r Hx _ IH]; [reflexivity|]. cbn [list_text]. now rewrite Hx, IH. Qed.

Lemma jtext_obj depth l : l <> [] ->
  jtext depth (JObj l) = cLBRACE :: list_text (mtext (S depth)) (break indent (S depth)) l ++ break indent depth ++ [cRBRACE].
Proof.
  intros Hl. cbn [jtext]. destruct (is_empty l) eqn:E; [destruct l; [congruence|discriminate]|].
  f_equal. f_equal. apply list_text_ext. apply Forall_forall. intros [k v] _. reflexivity.
Qed.
Lemma jtext_arr depth l : l <> [] ->
  jtext depth (JArr l) = cLBRACK :: list_text (jtext (S depth)) (break indent (S depth)) l ++ break indent depth ++ [cRBRACK].
Proof. intros Hl. cbn [jtext]. destruct (is_empty l) eqn:E; [destruct l; [congruence|discriminate]|]. reflexivity. Qed.

(** * The event writer *)

Variable Hq : q = serde_string.

Lemma concat_break d : concat (break_chunks indent d) = break indent d.
Proof. unfold break_chunks, break. destruct indent; [reflexivity|]. cbn [concat app]. now rewrite app_nil_r. Qed.
Lemma concat_comma b : concat (comma_chunks b) = if b then [cCOMMA] else [].
Proof. destruct b; reflexivity. Qed.

(** The same list text with the commas in front. *)
Fixpoint lead_text {A} (f : A -> str) (br : str) (nc : bool) (l : list A) : str :=
  match l with [] => [] | v :: r => (if nc then [cCOMMA] else []) ++ br ++ f v ++ lead_text f br true r end.
Lemma lead_text_true {A} (f : A -> str) br l : lead_text f br true l = comma_unless l ++ lead_text f br false l.
Proof. destruct l; reflexivity. Qed.
Lemma lead_text_eq {A} (f : A -> str) br l : lead_text f br false l = list_text f br l.
Proof.
  induction l as [|x r IH]; [reflexivity|]. cbn [lead_text list_text app]. now rewrite lead_text_true, IH.
Qed.

(** Writing [e] leaves the text [t] and goes on from the given state. *)
Definition writes (e : list event) (stack : list jctx) (depth : nat) (t : str) (stack' : list jctx) : Prop :=
  exists out, concat out = t /\
    forall rest, stream_loop st indent (e ++ rest) stack depth =
                 (let? r := stream_loop st indent rest stack' depth in Ok (out ++ r)).

Lemma writes_nil stack depth : writes [] stack depth [] stack.
Proof.
  exists []. split; [reflexivity|]. intros rest. cbn [app]. destruct (stream_loop _ _ _ _ _); reflexivity.
Qed.
Lemma writes_app e1 e2 s1 s2 s3 d t1 t2 : writes e1 s1 d t1 s2 -> writes e2 s2 d t2 s3 -> writes (e1 ++ e2) s1 d (t1 ++ t2) s3.
Proof.
  intros (o1 & <- & H1) (o2 & <- & H2). exists (o1 ++ o2). split; [apply concat_app|].
  intros rest. rewrite <- app_assoc, H1, H2. destruct (stream_loop _ _ rest _ _); cbn [bind]; [|reflexivity].
  now rewrite app_assoc.
Qed.
Lemma writes_one e s d out s' t : stream_event st indent e s d = Ok (out, s', d) -> concat out = t -> writes [e] s d t s'.
Proof.
  intros H <-. exists out. split; [reflexivity|]. intros rest. cbn [app stream_loop]. rewrite H. reflexivity.
Qed.

(** Where a value may be written, and what precedes it. *)
Definition expects (stack : list jctx) : Prop :=
  match stack with [] => True | CObj nc ev :: _ => nc = true /\ ev = true | CArr _ :: _ => True end.
Definition lead (stack : list jctx) (depth : nat) : str := concat (item_prefix stack indent depth).
(** A value may only be written at the depth of the open containers. *)

Lemma writes_block e s d t inner inner' o c out1 out2 :
  stream_event st indent o s d = Ok (out1, inner, S d) ->
  writes e inner (S d) t inner' ->
  stream_event st indent c inner' (S d) = Ok (out2, close_value s, d) ->
  writes (o :: e ++ [c]) s d (concat out1 ++ t ++ concat out2) (close_value s).
Proof.
  intros H1 (out & <- & H) H2. exists (out1 ++ out ++ out2).
  split; [now rewrite !concat_app|]. intros rest. cbn [app stream_loop]. rewrite H1. cbn [bind].
  rewrite <- app_assoc, H. cbn [app stream_loop]. rewrite H2. cbn [bind].
  destruct (stream_loop _ _ rest _ _); cbn [bind]; [|reflexivity]. now rewrite <- !app_assoc.
Qed.

Lemma describes_writes P :
  (forall e v, describes P e v -> forall stack d, expects stack ->
     writes e stack d (lead stack d ++ jtext d v) (close_value stack)) /\
  (forall e l, describes_items P e l -> forall nc stack d,
     writes e (CArr nc :: stack) d (lead_text (jtext d) (break indent d) nc l)
       (CArr (nc || negb (is_empty l)) :: stack)) /\
  (forall e l, describes_entries P e l -> forall nc stack d,
     writes e (CObj nc false :: stack) d (lead_text (mtext d) (break indent d) nc l)
       (CObj (nc || negb (is_empty l)) false :: stack)).
Proof.
  apply describes_mutind.
  - intros p stack d Hs. assert (Hp : stringify_primitive st p = jtext d (JPrim p)) by (destruct p; cbn [jtext ptext]; rewrite ?Hq; reflexivity).
    destruct stack as [|[nc ev|nc] stack].
    + eapply writes_one; [reflexivity|]. rewrite Hp. cbn [concat]. now rewrite app_nil_r.
    + destruct Hs as [-> ->]. eapply writes_one; [reflexivity|]. rewrite Hp. cbn [concat]. now rewrite app_nil_r.
    + eapply writes_one; [reflexivity|]. rewrite Hp, concat_app. cbn [concat]. now rewrite app_nil_r.
  - intros n e l He IH _ stack d Hs.
    specialize (IH false stack (S d)).
    pose proof (writes_block e stack d _ _ _ (EvStartArray n) EvEndArray _ _ eq_refl IH eq_refl) as H.
    match type of H with writes _ _ _ ?t _ => replace (lead stack d ++ jtext d (JArr l)) with t; [exact H|] end.
    rewrite !concat_app, <- app_assoc. unfold lead. f_equal. cbn [concat orb]. rewrite app_nil_r.
    destruct l as [|v l]; [reflexivity|]. rewrite jtext_arr by discriminate.
    rewrite lead_text_eq. cbn [is_empty negb app pred]. now rewrite concat_break.
  - intros e l He IH stack d Hs.
    specialize (IH false stack (S d)).
    pose proof (writes_block e stack d _ _ _ EvStartObject EvEndObject _ _ eq_refl IH eq_refl) as H.
    match type of H with writes _ _ _ ?t _ => replace (lead stack d ++ jtext d (JObj l)) with t; [exact H|] end.
    rewrite !concat_app, <- app_assoc. unfold lead. f_equal. cbn [concat orb]. rewrite app_nil_r.
    destruct l as [|v l]; [reflexivity|]. rewrite jtext_obj by discriminate.
    rewrite lead_text_eq. cbn [is_empty negb app pred]. now rewrite concat_break.
  - intros nc stack d. cbn [lead_text is_empty negb]. rewrite orb_false_r. apply writes_nil.
  - intros e1 v e2 l _ IH1 _ IH2 nc stack d. cbn [lead_text is_empty negb]. rewrite orb_true_r.
    rewrite !app_assoc, <- (app_assoc _ (break indent d)).
    apply writes_app with (CArr true :: stack).
    + specialize (IH1 (CArr nc :: stack) d I). unfold lead, item_prefix in IH1.
      rewrite concat_app, concat_break, concat_comma, <- app_assoc in IH1. exact IH1.
    + exact (IH2 true stack d).
  - intros nc stack d. cbn [lead_text is_empty negb]. rewrite orb_false_r. apply writes_nil.
  - intros k b e1 v e2 l _ IH1 _ IH2 nc stack d. cbn [lead_text is_empty negb]. rewrite orb_true_r.
    change (EvKey k b :: e1 ++ e2) with ([EvKey k b] ++ e1 ++ e2).
    unfold mtext at 1. cbn [fst snd].
    replace ((if nc then [cCOMMA] else []) ++ break indent d ++ (q k ++ colon ++ jtext d v) ++ lead_text (mtext d) (break indent d) true l)
      with (((if nc then [cCOMMA] else []) ++ break indent d ++ q k ++ colon) ++ jtext d v ++ lead_text (mtext d) (break indent d) true l)
      by now rewrite <- !app_assoc.
    apply writes_app with (CObj true true :: stack).
    + eapply writes_one; [reflexivity|]. rewrite !concat_app, concat_break, concat_comma. cbn [concat].
      rewrite !app_nil_r, Hq. reflexivity.
    + apply writes_app with (CObj true false :: stack).
      * exact (IH1 (CObj true true :: stack) d (conj eq_refl eq_refl)).
      * exact (IH2 true stack d).
Qed.
End Text.

Theorem stream_text P st indent e v : describes P e v ->
  exists out, json_stream_from_events st e indent = Ok out /\ concat out = jtext serde_string st indent 0 v.
Proof.
  intros H. destruct (proj1 (describes_writes serde_string st indent eq_refl P) e v H [] 0%nat I) as (out & E & Hw).
  exists (out ++ []). unfold json_stream_from_events. specialize (Hw []). rewrite app_nil_r in Hw. rewrite Hw.
  split; [reflexivity|]. rewrite app_nil_r. exact E.
Qed.

Theorem stringify_text st indent depth v : stringify_value_to_buf st indent depth v = jtext push_json_string st indent depth v.
Proof.
  revert depth. induction v as [p|l IH|l IH] using json_ind'; intros depth.
  - destruct p; reflexivity.
  - cbn [stringify_value_to_buf jtext]. destruct (is_empty l); [reflexivity|]. f_equal. f_equal.
    induction IH as [|v r Hv _ IHr]; [reflexivity|]. cbn [list_text]. now rewrite Hv, IHr.
  - cbn [stringify_value_to_buf jtext]. destruct (is_empty l); [reflexivity|]. f_equal. f_equal.
    induction IH as [|[k v] r Hv _ IHr]; [reflexivity|]. cbn [list_text]. cbn [snd] in Hv.
    rewrite Hv, IHr. unfold colon. now rewrite <- !app_assoc.
Qed.

(** * Reading the text back *)

(** A string printer whose output reads back. *)
Definition reads_back (q : str -> str) : Prop :=
  forall s r, exists body, q s = cDQ :: body /\ read_string (body ++ r) = Some (s, r).

Lemma nat_hex d : d < 16 -> hex_val (hex_digit d) = Some d.
Proof.
  intros H. unfold hex_val, hex_digit, is_digit. destruct (N.ltb_spec d 10).
  - replace ((48 <=? 48 + d) && (48 + d <=? 57)) with true by lia. f_equal. lia.
  - replace ((48 <=? 87 + d) && (87 + d <=? 57)) with false by lia.
    replace ((97 <=? 87 + d) && (87 + d <=? 102)) with true by lia. f_equal. lia.
Qed.
Lemma read_unicode c r : c < 256 -> read_string (unicode_escape c ++ r) = put c (read_string r).
Proof.
  intros H. unfold unicode_escape, hex4. cbn [app read_string].
  change (cBSLASH =? cDQ) with false. change (cBSLASH =? cBSLASH) with true. cbv iota.
  change (simple_escape cLU) with (@None N). cbv iota. change (cLU =? 117) with true. cbv iota.
  unfold hex_val4. rewrite !nat_hex by (apply N.mod_lt; lia).
  replace (c / 4096 mod 16) with 0 by (rewrite N.div_small by lia; reflexivity).
  replace (c / 256 mod 16) with 0 by (rewrite N.div_small by lia; reflexivity).
  replace (((0 * 16 + 0) * 16 + c / 16 mod 16) * 16 + c mod 16) with c.
  2: { rewrite (N.mod_small (c / 16)) by (apply N.div_lt_upper_bound; lia). pose proof (N.div_mod c 16). lia. }
  unfold low_surrogate, high_surrogate.
  replace ((56320 <=? c) && (c <=? 57343)) with false by lia.
  replace ((55296 <=? c) && (c <=? 56319)) with false by lia. reflexivity.
Qed.
Lemma read_plain c r : (c =? cDQ) = false -> (c =? cBSLASH) = false -> (c <? 32) = false ->
  read_string (c :: r) = put c (read_string r).
Proof. intros H1 H2 H3. cbn [read_string]. now rewrite H1, H2, H3. Qed.

Lemma read_push_char c r : read_string (push_char c ++ r) = put c (read_string r).
Proof.
  unfold push_char.
  destruct (N.eqb_spec c cDQ) as [->|H1]; [reflexivity|].
  destruct (N.eqb_spec c cBSLASH) as [->|H2]; [reflexivity|].
  destruct (N.eqb_spec c cLF) as [->|H3]; [reflexivity|].
  destruct (N.eqb_spec c cCR) as [->|H4]; [reflexivity|].
  destruct (N.eqb_spec c cTAB) as [->|H5]; [reflexivity|].
  destruct (is_control c) eqn:E.
  - apply read_unicode. unfold is_control in E. lia.
  - apply read_plain; unfold is_control in E; lia.
Qed.
Lemma read_serde_char c r : read_string (serde_char c ++ r) = put c (read_string r).
Proof.
  unfold serde_char.
  destruct (N.eqb_spec c cDQ) as [->|H1]; [reflexivity|].
  destruct (N.eqb_spec c cBSLASH) as [->|H2]; [reflexivity|].
  destruct (N.eqb_spec c 8) as [->|H6]; [reflexivity|].
  destruct (N.eqb_spec c 12) as [->|H7]; [reflexivity|].
  destruct (N.eqb_spec c cLF) as [->|H3]; [reflexivity|].
  destruct (N.eqb_spec c cCR) as [->|H4]; [reflexivity|].
  destruct (N.eqb_spec c cTAB) as [->|H5]; [reflexivity|].
  destruct (N.ltb_spec c 32).
  - apply read_unicode. lia.
  - apply read_plain; lia.
Qed.
Lemma read_flat f s r : (forall c r, read_string (f c ++ r) = put c (read_string r)) ->
  read_string ((flat_map f s ++ [cDQ]) ++ r) = Some (s, r).
Proof.
  intros Hf. induction s as [|c s IH]; cbn [flat_map app]; [reflexivity|].
  rewrite <- !app_assoc, Hf. rewrite <- app_assoc in IH. rewrite IH. reflexivity.
Qed.
Lemma push_reads_back : reads_back push_json_string.
Proof. intros s r. eexists. split; [reflexivity|]. apply read_flat, read_push_char. Qed.
Lemma serde_reads_back : reads_back serde_string.
Proof. intros s r. eexists. split; [reflexivity|]. apply read_flat, read_serde_char. Qed.

Section Read.
Variable q : str -> str.
Variable st : num_style.
Variable indent : nat.
Hypothesis Hq : reads_back q.

(** The tree the text stands for. *)
Definition ptree (p : prim) : jtree :=
  match p with
  | PNull => TNull
  | PBool b => TBool b
  | PNum x => match number_text st x with Some n => TNum n | None => TNull end
  | PStr s => TStr s
  end.
Fixpoint tree_of (v : json) : jtree :=
  match v with
  | JPrim p => ptree p
  | JArr l => TArr (map tree_of l)
  | JObj l => TObj (map (fun kv => (fst kv, tree_of (snd kv))) l)
  end.

Lemma map_option_cons {A B} (f : A -> option B) x r : map_option f (x :: r) =
  match f x, map_option f r with Some y, Some ys => Some (y :: ys) | _, _ => None end.
Proof. reflexivity. Qed.
Lemma tree_of_value v : tree_value (tree_of v) = Some (finite_json v).
Proof.
  induction v as [p|l IH|l IH] using json_ind'.
  - destruct p as [s|x|b|]; try reflexivity. cbn [tree_of ptree finite_json finite_prim].
    destruct (number_text st x) as [n|] eqn:E.
    + assert (Hf : f64_is_finite x = true) by (apply (number_text_finite st); eauto). rewrite Hf.
      destruct (number_text_ok _ _ _ E) as (s & ip & fp & ex & E' & _ & H). cbn [tree_value]. now rewrite H.
    + destruct (f64_is_finite x) eqn:Hf; [|reflexivity].
      apply (number_text_finite st) in Hf as [n Hn]. congruence.
  - cbn [tree_of tree_value finite_json].
    replace (map_option tree_value (map tree_of l)) with (Some (map finite_json l)); [reflexivity|].
    induction IH as [|v r Hv _ IHr]; [reflexivity|]. cbn [map]. now rewrite map_option_cons, Hv, <- IHr.
  - cbn [tree_of tree_value finite_json].
    replace (map_option _ (map _ l)) with (Some (map (fun kv : str * json => (fst kv, finite_json (snd kv))) l)); [reflexivity|].
    induction IH as [|[k v] r Hv _ IHr]; [reflexivity|]. cbn [snd] in Hv. cbn [map]. rewrite map_option_cons, <- IHr.
    cbn [fst snd]. now rewrite Hv.
Qed.

(** First characters. *)
Definition opening (c : char) : Prop :=
  json_ws c = false /\ c <> cRBRACK /\ c <> cRBRACE.
Lemma ptext_head p : exists c r, ptext q st p = c :: r /\ opening c.
Proof.
  destruct p as [s|x|b|]; cbn [ptext].
  - destruct (Hq s []) as (body & -> & _). exists cDQ, body. split; [reflexivity|]. repeat split; discriminate.
  - destruct (number_text st x) as [n|] eqn:E; cbn [unwrap_or].
    + destruct (number_text_ok _ _ _ E) as (s & ip & fp & ex & E' & Hn & _).
      destruct (numeral_chars _ _ _ _ _ _ Hn) as (_ & c & r & -> & Hc). exists c, r. split; [reflexivity|].
      unfold opening, json_ws. unfold is_digit in Hc. lia.
    + do 2 eexists. split; [reflexivity|]. repeat split; discriminate.
  - destruct b; do 2 eexists; (split; [reflexivity|]); repeat split; discriminate.
  - do 2 eexists; (split; [reflexivity|]); repeat split; discriminate.
Qed.
Lemma jtext_head d v : exists c r, jtext q st indent d v = c :: r /\ opening c.
Proof.
  destruct v as [p|l|l].
  - apply ptext_head.
  - cbn [jtext]. destruct (is_empty l); do 2 eexists; (split; [reflexivity|]); repeat split; discriminate.
  - cbn [jtext]. destruct (is_empty l); do 2 eexists; (split; [reflexivity|]); repeat split; discriminate.
Qed.

Lemma skip_break d r : skip_ws (break indent d ++ r) = skip_ws r.
Proof.
  unfold break. destruct indent as [|i]; [reflexivity|]. cbn [app skip_ws]. change (json_ws cLF) with true. cbv iota.
  unfold spaces. induction (d * S i)%nat as [|k IH]; [reflexivity|]. exact IH.
Qed.
Lemma skip_open c r : json_ws c = false -> skip_ws (c :: r) = c :: r.
Proof. intros H. cbn [skip_ws]. now rewrite H. Qed.
Lemma skip_jtext d v r : skip_ws (jtext q st indent d v ++ r) = jtext q st indent d v ++ r.
Proof. destruct (jtext_head d v) as (c & t & -> & H & _). now apply skip_open. Qed.

Lemma read_value_skip fuel s s' : skip_ws s = skip_ws s' -> read_value fuel s = read_value fuel s'.
Proof. intros H. destruct fuel; [reflexivity|]. cbn [read_value]. now rewrite H. Qed.

Definition ends (r : str) : Prop := match r with [] => True | c :: _ => number_char c = false end.

Lemma span_number_app n r : Forall (fun c => number_char c = true) n -> ends r -> span_number (n ++ r) = (n, r).
Proof.
  intros Hn Hr. induction Hn as [|c n Hc _ IH]; cbn [app].
  - destruct r as [|c r]; [reflexivity|]. cbn [span_number ends] in *. now rewrite Hr.
  - cbn [span_number]. now rewrite Hc, IH.
Qed.

Lemma read_prim fuel p r : ends r -> read_value (S fuel) (ptext q st p ++ r) = Some (ptree p, r).
Proof.
  intros Hr. destruct p as [s|x|b|]; cbn [ptext ptree].
  - destruct (Hq s r) as (body & -> & H). cbn [app read_value]. rewrite skip_open by reflexivity.
    change (cDQ =? cDQ) with true. cbv iota. rewrite H. reflexivity.
  - destruct (number_text st x) as [n|] eqn:E; cbn [unwrap_or]; [|reflexivity].
    destruct (number_text_ok _ _ _ E) as (s & ip & fp & ex & E' & Hn & _).
    destruct (numeral_chars _ _ _ _ _ _ Hn) as (Hall & c & t & Et & Hc).
    assert (Hj := numeral_json _ _ _ _ _ _ Hn). assert (Hs := span_number_app n r Hall Hr).
    rewrite Et in Hs |- *. cbn [app] in *. cbn [read_value].
    rewrite skip_open by (unfold json_ws; unfold is_digit in Hc; lia).
    replace (c =? cDQ) with false by (unfold is_digit in Hc; lia).
    replace (c =? cLBRACE) with false by (unfold is_digit in Hc; lia).
    replace (c =? cLBRACK) with false by (unfold is_digit in Hc; lia).
    cbn [lit starts_with_str].
    replace (N_of_ascii "n" =? c) with false by (unfold is_digit in Hc; change (N_of_ascii "n") with 110; lia).
    replace (N_of_ascii "t" =? c) with false by (unfold is_digit in Hc; change (N_of_ascii "t") with 116; lia).
    replace (N_of_ascii "f" =? c) with false by (unfold is_digit in Hc; change (N_of_ascii "f") with 102; lia).
    cbn [andb]. rewrite Hs. rewrite <- Et, Hj. reflexivity.
  - destruct b; reflexivity.
  - reflexivity.
Qed.

Lemma read_value_arr fuel r x t : skip_ws r = x :: t -> (x =? cRBRACK) = false ->
  read_value (S fuel) (cLBRACK :: r) = option_map (fun p => (TArr (fst p), snd p)) (read_items fuel r).
Proof. intros H1 H2. cbn [read_value]. rewrite skip_open by reflexivity. rewrite H1, H2. reflexivity. Qed.
Lemma read_value_obj fuel r x t : skip_ws r = x :: t -> (x =? cRBRACE) = false ->
  read_value (S fuel) (cLBRACE :: r) = option_map (fun p => (TObj (fst p), snd p)) (read_members fuel r).
Proof. intros H1 H2. cbn [read_value]. rewrite skip_open by reflexivity. rewrite H1, H2. reflexivity. Qed.
Lemma read_items_S fuel s : read_items (S fuel) s =
  match read_value fuel s with
  | None => None
  | Some (v, r) =>
      match skip_ws r with
      | c :: r' => if c =? cRBRACK then Some ([v], r')
                   else if c =? cCOMMA then option_map (fun p => (v :: fst p, snd p)) (read_items fuel r')
                   else None
      | [] => None
      end
  end.
Proof. reflexivity. Qed.
Lemma read_members_S fuel s k r r1 r2 : skip_ws s = cDQ :: r -> read_string r = Some (k, r1) -> skip_ws r1 = cCOLON :: r2 ->
  read_members (S fuel) s =
  match read_value fuel r2 with
  | None => None
  | Some (v, r) =>
      match skip_ws r with
      | c :: r' => if c =? cRBRACE then Some ([(k, v)], r')
                   else if c =? cCOMMA
                   then option_map (fun p => ((k, v) :: fst p, snd p)) (read_members fuel r')
                   else None
      | [] => None
      end
  end.
Proof. intros H1 H2 H3. cbn [read_members]. now rewrite H1, H2, H3. Qed.

Lemma comma_ends {A} (l : list A) d c r : number_char c = false -> ends (comma_unless l ++ break indent d ++ c :: r).
Proof. intros H. unfold comma_unless. destruct (is_empty l); [|reflexivity]. unfold break. destruct indent; [exact H|reflexivity]. Qed.

Lemma read_back v : forall d fuel r, ends r -> (length (jtext q st indent d v) <= fuel)%nat ->
  read_value fuel (jtext q st indent d v ++ r) = Some (tree_of v, r).
Proof.
  induction v as [p|l IH|l IH] using json_ind'; intros d fuel r Hr Hf.
  - cbn [jtext] in *. destruct (ptext_head p) as (c & t & E & _).
    destruct fuel as [|fuel]; [rewrite E in Hf; cbn [length] in Hf; lia|]. now apply read_prim.
  - destruct l as [|v0 l0] eqn:El.
    { cbn [jtext is_empty] in *. destruct fuel as [|fuel]; [cbn in Hf; lia|]. reflexivity. }
    rewrite <- El in *. assert (Hne : l <> []) by (rewrite El; discriminate).
    rewrite jtext_arr in * by exact Hne. destruct fuel as [|fuel]; [cbn [length] in Hf; lia|].
    assert (Hfuel : (length (list_text (jtext q st indent (S d)) (break indent (S d)) l) < fuel)%nat).
    { cbn [length] in Hf. rewrite !app_length in Hf. cbn [length] in Hf. lia. }
    cbn [app]. rewrite <- !app_assoc. cbn [app].
    assert (Hhead : exists x t, skip_ws (list_text (jtext q st indent (S d)) (break indent (S d)) l ++ break indent d ++ cRBRACK :: r) = x :: t
                                /\ (x =? cRBRACK) = false).
    { rewrite El. cbn [list_text]. rewrite <- !app_assoc, skip_break, skip_jtext.
      destruct (jtext_head (S d) v0) as (c & t & -> & _ & H1 & _). cbn [app]. do 2 eexists. split; [reflexivity|].
      now apply N.eqb_neq. }
    destruct Hhead as (x & t & Hx & Hxb). rewrite (read_value_arr fuel _ x t Hx Hxb). clear x t Hx Hxb Hf El v0 l0.
    assert (G : forall fuel, (length (list_text (jtext q st indent (S d)) (break indent (S d)) l) < fuel)%nat ->
               read_items fuel (list_text (jtext q st indent (S d)) (break indent (S d)) l ++ break indent d ++ cRBRACK :: r)
               = Some (map tree_of l, r)).
    { clear Hfuel fuel. induction IH as [|v l Hv HF IHl]; [congruence|]. intros fuel Hfuel.
      cbn [list_text] in Hfuel. rewrite !app_length in Hfuel.
      destruct (jtext_head (S d) v) as (c & t & E & _).
      assert (Hpos : (0 < length (jtext q st indent (S d) v))%nat) by (rewrite E; cbn [length]; lia). clear c t E.
      destruct fuel as [|fuel]; [lia|]. cbn [list_text]. rewrite <- !app_assoc. rewrite read_items_S.
      rewrite (read_value_skip fuel _ (jtext q st indent (S d) v ++ comma_unless l
                 ++ list_text (jtext q st indent (S d)) (break indent (S d)) l ++ break indent d ++ cRBRACK :: r))
        by apply skip_break.
      rewrite Hv; [|destruct l; [apply comma_ends; reflexivity|reflexivity]|lia].
      destruct l as [|v' l].
      - cbn [comma_unless is_empty list_text app]. rewrite skip_break, skip_open by reflexivity. reflexivity.
      - unfold comma_unless at 1. cbn [is_empty]. cbn [app]. rewrite skip_open by reflexivity.
        change (cCOMMA =? cRBRACK) with false. change (cCOMMA =? cCOMMA) with true. cbv iota.
        rewrite IHl; [reflexivity|discriminate|]. unfold comma_unless in Hfuel. cbn [is_empty length] in Hfuel. lia. }
    rewrite G by exact Hfuel. reflexivity.
  - destruct l as [|v0 l0] eqn:El.
    { cbn [jtext is_empty] in *. destruct fuel as [|fuel]; [cbn in Hf; lia|]. reflexivity. }
    rewrite <- El in *. assert (Hne : l <> []) by (rewrite El; discriminate).
    rewrite jtext_obj in * by exact Hne. destruct fuel as [|fuel]; [cbn [length] in Hf; lia|].
    assert (Hfuel : (length (list_text (mtext q st indent (S d)) (break indent (S d)) l) < fuel)%nat).
    { cbn [length] in Hf. rewrite !app_length in Hf. cbn [length] in Hf. lia. }
    cbn [app]. rewrite <- !app_assoc. cbn [app].
    assert (Hhead : exists x t, skip_ws (list_text (mtext q st indent (S d)) (break indent (S d)) l ++ break indent d ++ cRBRACE :: r) = x :: t
                                /\ (x =? cRBRACE) = false).
    { rewrite El. cbn [list_text]. rewrite <- !app_assoc, skip_break. unfold mtext.
      destruct (Hq (fst v0) []) as (body & -> & _). cbn [app].
      rewrite skip_open by reflexivity. do 2 eexists. split; [reflexivity|]. reflexivity. }
    destruct Hhead as (x & t & Hx & Hxb). rewrite (read_value_obj fuel _ x t Hx Hxb). clear x t Hx Hxb Hf El v0 l0.
    assert (G : forall fuel, (length (list_text (mtext q st indent (S d)) (break indent (S d)) l) < fuel)%nat ->
               read_members fuel (list_text (mtext q st indent (S d)) (break indent (S d)) l ++ break indent d ++ cRBRACE :: r)
               = Some (map (fun kv => (fst kv, tree_of (snd kv))) l, r)).
    { clear Hfuel fuel. induction IH as [|[k v] l Hv HF IHl]; [congruence|]. intros fuel Hfuel. cbn [snd] in Hv.
      cbn [list_text] in Hfuel. rewrite !app_length in Hfuel. unfold mtext at 1 in Hfuel. cbn [fst snd] in Hfuel.
      rewrite !app_length in Hfuel.
      destruct (jtext_head (S d) v) as (c & t & E & _).
      assert (Hpos : (0 < length (jtext q st indent (S d) v))%nat) by (rewrite E; cbn [length]; lia).
      destruct fuel as [|fuel]; [lia|]. cbn [list_text]. unfold mtext at 1. cbn [fst snd]. rewrite <- !app_assoc.
      set (more := comma_unless l ++ list_text (mtext q st indent (S d)) (break indent (S d)) l ++ break indent d ++ cRBRACE :: r).
      destruct (Hq k (colon indent ++ jtext q st indent (S d) v ++ more)) as (body & Ek & Hk). rewrite Ek.
      assert (Hc : exists w, colon indent = cCOLON :: w /\ forall r, skip_ws (w ++ r) = skip_ws r).
      { unfold colon. destruct indent; [exists []|exists [cSPACE]]; split; auto. }
      destruct Hc as (w & Ew & Hw).
      rewrite (read_members_S fuel _ k (body ++ colon indent ++ jtext q st indent (S d) v ++ more)
                 (colon indent ++ jtext q st indent (S d) v ++ more) (w ++ jtext q st indent (S d) v ++ more)).
      2: { rewrite skip_break. reflexivity. }
      2: { exact Hk. }
      2: { rewrite Ew. reflexivity. }
      rewrite (read_value_skip fuel _ (jtext q st indent (S d) v ++ more)) by apply Hw.
      unfold more. clear E Ek Hk Ew Hw.
      rewrite Hv; [|destruct l; [apply comma_ends; reflexivity|reflexivity]|lia].
      destruct l as [|v' l].
      - cbn [comma_unless is_empty list_text app]. rewrite skip_break, skip_open by reflexivity. reflexivity.
      - unfold comma_unless at 1. cbn [is_empty]. cbn [app]. rewrite skip_open by reflexivity.
        change (cCOMMA =? cRBRACE) with false. change (cCOMMA =? cCOMMA) with true. cbv iota.
        rewrite IHl; [reflexivity|discriminate|]. unfold comma_unless in Hfuel. cbn [is_empty length] in Hfuel. lia. }
    rewrite G by exact Hfuel. reflexivity.
Qed.

Theorem read_json_text v : read_json (jtext q st indent 0 v) = Some (tree_of v).
Proof.
  unfold read_json. rewrite <- (app_nil_r (jtext q st indent 0 v)) at 2.
  rewrite read_back; [reflexivity|exact I|lia].
Qed.
Theorem json_value_text v : json_value (jtext q st indent 0 v) = Some (finite_json v).
Proof. unfold json_value. rewrite read_json_text. apply tree_of_value. Qed.
End Read.
