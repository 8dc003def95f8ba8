(** The exact JSON text: C71. *)
From Coq Require Import SpecFloat.
From Verif Require Import Chars Floats Json JsonInd NumProof Shared Scanner Parser DecValidation Decoders EventBuilder Expand DecodeApi
  Lex Spec DecRel DecProps ExpandProps DecNums JsonText SpecJson JsonNumProof JsonTextProof SpecSerde Serde SerdeProof Wasm PropsJson PropsWasm
  SpecPretty PrettyProof.

(** There is exactly one text of a value. *)
Theorem C71_one_text :
  forall (w : writer) (st : num_style) (indent : nat) (v : json),
    exists text, json_text w st indent v text /\ forall text', json_text w st indent v text' -> text' = text.
Proof.
  intros w st indent v. exists (jtext (quote w) st indent 0 v). split; [apply text_laid|].
  intros t' (ls & H & ->). destruct (text_laid w st indent v) as (ls' & H' & ->). now rewrite (written_one _ _ _ _ _ _ H H').
Qed.
Print Assumptions C71_one_text.
Theorem C71_null : forall (st : num_style) (indent : nat), concat (json_stringify_null st indent) = lit "null".
Proof. reflexivity. Qed.
Print Assumptions C71_null.

(** Both writers write it. *)
Theorem C71_writers :
  forall (st : num_style) (v : json) (indent : nat),
    json_text Buffered st indent v (concat (json_stringify_lines st v indent)) /\
    forall evs, describes (fun _ _ => True) evs v ->
      exists chunks, json_stream_from_events st evs indent = Ok chunks /\ json_text Streamed st indent v (concat chunks).
Proof.
  intros st v indent. split.
  - unfold json_stringify_lines. cbn [concat]. rewrite app_nil_r, stringify_text. exact (text_laid Buffered st indent v).
  - intros evs H. destruct (stream_text _ st indent _ _ H) as (out & Eo & Ec). exists out. split; [exact Eo|].
    rewrite Ec. exact (text_laid Streamed st indent v).
Qed.
Print Assumptions C71_writers.

(** The tool: the text of the decoded value, with the indentation the document was read with; by the
    one writer with path expansion, by the other without. *)
Theorem C71_tool :
  forall (st : num_style) (input : str) (o : option decode_options) (v : json),
    try_decode input o = Ok v ->
    exists chunks, decode_to_json_chunks st input o = Ok chunks /\
      json_text (match rd_expand (resolve_decode_options o) with EPSafe => Buffered | EPOff => Streamed end)
        st (rd_indent (resolve_decode_options o)) v (concat chunks).
Proof.
  intros st input o v Ev. revert Ev.
  unfold decode_to_json_chunks, decode_to_value, cli_decode_events, try_decode, try_decode_from_lines. cbv zeta.
  destruct (decode_stream_sync _ _) as [evs|e'] eqn:Ed; cbn [bind]; [|discriminate].
  destruct (stream_grammar _ _ _ Ed) as [ok Hw]. destruct (describes_build _ _ _ Hw) as (n & En & <-).
  rewrite En. cbn [bind]. destruct (rd_expand _); intros Ev.
  - injection Ev as <-. destruct (stream_text _ st (rd_indent (resolve_decode_options o)) _ _ Hw) as (out & Eo & Ec).
    exists out. split; [exact Eo|]. rewrite Ec. exact (text_laid Streamed st _ _).
  - destruct (expand_paths_safe _ _); cbn [bind] in *; [|discriminate]. injection Ev as <-. eexists. split; [reflexivity|].
    unfold json_stringify_lines. cbn [concat]. rewrite app_nil_r, stringify_text. exact (text_laid Buffered st _ _).
Qed.
Print Assumptions C71_tool.

(** The JavaScript bindings: the text without line breaks, or with two spaces per level, of the value
    with the last value of repeated names. *)
Theorem C71_bindings :
  forall (st : num_style) (toon : str) (v : json),
    try_decode toon None = Ok v ->
    exists compact pretty, wasm_decode st toon = Returns compact /\ wasm_decode_pretty st toon = Returns pretty /\
      json_text Streamed st 0 (last_wins v) compact /\ json_text Streamed st 2 (last_wins v) pretty.
Proof.
  intros st toon v H. unfold wasm_decode, wasm_decode_pretty, run_decode. rewrite H. do 2 eexists. do 2 (split; [reflexivity|]).
  rewrite (serde_text st v 0), (pretty_text st v 0). split; [exact (text_laid Streamed st 0 _)|exact (text_laid Streamed st 2 _)].
Qed.
Print Assumptions C71_bindings.

(** Splitting the text at line breaks gives the lines back, and the spaces a line begins with tell how
    far in it is: no line has a line break of its own, is empty, or begins with a space of its own. *)
Theorem C71_lines :
  forall (w : writer) (st : num_style) (indent : nat) (v : json) (ls : list jline),
    (0 < indent)%nat -> written w st (colon_for indent) v ls ->
    split_on 10 (laid indent ls) = map (indented indent) ls /\
    Forall (fun l => ~ In 10 (snd l) /\ exists c r, snd l = c :: r /\ c <> 32) ls.
Proof.
  intros w st indent v ls Hi H. pose proof (written_clean _ _ _ _ _ H) as Hc. split; [|exact Hc].
  destruct indent as [|m]; [lia|]. unfold laid. apply split_join.
  - intros E. apply map_eq_nil in E. subst ls. inversion H.
  - apply Forall_map. eapply Forall_impl; [|exact Hc]. intros [k t] [Hn _]. unfold indented. cbn [fst snd] in *.
    rewrite in_app_iff. intros [Hr|Hr]; [apply repeat_spec in Hr; discriminate|auto].
Qed.
Print Assumptions C71_lines.

Example C71_case :
  let v := JObj [(lit "k", JArr [JPrim (PStr (lit "a
	b")); JArr []; JObj [([127], JPrim PNull); (lit "z", JPrim (PBool true))]]); (lit "e", JObj [])] in
  let ls := [(0, lit "{"); (1, lit """k"": ["); (2, lit """a\n\tb"","); (2, lit "[],"); (2, lit "{");
             (3, lit """\u007f"": null,"); (3, lit """z"": true"); (2, lit "}"); (1, lit "],"); (1, lit """e"": {}"); (0, lit "}")]%nat in
  written Buffered usual_style (lit ": ") v ls /\ concat (json_stringify_lines usual_style v 3) = laid 3 ls /\
  concat (json_stringify_lines usual_style v 0) = lit "{""k"":[""a\n\tb"",[],{""\u007f"":null,""z"":true}],""e"":{}}".
Proof.
  cbv zeta. match goal with |- written ?w ?st _ ?v ?ls /\ _ => destruct (C71_writers st v 3) as [(ls' & H & E) _] end.
  assert (El : ls' = [(0, lit "{"); (1, lit """k"": ["); (2, lit """a\n\tb"","); (2, lit "[],"); (2, lit "{");
             (3, lit """\u007f"": null,"); (3, lit """z"": true"); (2, lit "}"); (1, lit "],"); (1, lit """e"": {}"); (0, lit "}")]%nat).
  { assert (L : forall a b : list jline, Forall (fun l => exists c r, snd l = c :: r /\ c <> 32) a -> Forall (fun l => exists c r, snd l = c :: r /\ c <> 32) b ->
      map (indented 3) a = map (indented 3) b -> a = b).
    { induction a as [|[k t] a IH]; intros [|[k' t'] b] Ha Hb M; try discriminate; [reflexivity|].
      inversion Ha as [|? ? (c & r & Et & Hc) Ha']; subst. inversion Hb as [|? ? (c' & r' & Et' & Hc') Hb']; subst.
      cbn [snd] in *. subst t t'. cbn [map] in M. injection M as M1 M2. f_equal; [|auto]. unfold indented in M1. cbn [fst snd] in M1.
      assert (D : forall i j, repeat 32 i ++ c :: r = repeat 32 j ++ c' :: r' -> i = j /\ c :: r = c' :: r').
      { clear - Hc Hc'. induction i as [|i IH]; intros [|j]; cbn [repeat app]; intros M; try (injection M; congruence); [auto|].
        injection M as M. destruct (IH j M). split; [congruence|assumption]. }
      destruct (D _ _ M1) as [E1 E2]. f_equal; [lia|exact E2]. }
    destruct (C71_lines _ _ 3 _ _ ltac:(lia) H) as [Hs Hc]. apply L.
    - eapply Forall_impl; [|exact Hc]. intros l [_ Hl]. exact Hl.
    - repeat constructor; do 2 eexists; (split; [reflexivity|discriminate]).
    - rewrite <- Hs, <- E. vm_compute. reflexivity. }
  subst ls'. split; [exact H|]. split; [exact E|]. vm_compute. reflexivity.
Qed.
