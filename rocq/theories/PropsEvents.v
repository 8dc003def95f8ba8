(** C60: building a value from any sequence of events, and writing any sequence as JSON text. *)
From Verif Require Import Chars Floats Json Folding Spec EventBuilder JsonText SpecJson ErrText SpecEvents EventProof DecProps PropsJson.

Local Open Scope nat_scope.

Lemma stands_outside evs root : stands evs [] root -> exists l, gives_items False evs l /\ root = last (map Some l) None.
Proof. intros H. inversion H; subst. eauto. Qed.
(** The builder accepts exactly the sequences of one or more values, each with a key before it in an
    object; keys without value are dropped, and all values but the last. *)
Theorem C60_built : forall (evs : list event) (n : node),
  build_node_from_events evs = Ok n <-> exists l, gives_items False evs (l ++ [n]).
Proof.
  intros evs n. unfold build_node_from_events. split.
  - destruct (apply_events (BState [] None) evs) as [[st root]|] eqn:E; [|discriminate]. cbn [bind bs_stack bs_root]. apply apply_stands in E. cbn [bs_stack bs_root] in E.
    destruct st; [|discriminate]. destruct root as [m|]; [|discriminate]. intros H. injection H as ->. apply stands_outside in E as (l & Hl & E2).
    destruct l as [|x l _] using rev_ind; [discriminate E2|]. rewrite map_app in E2. cbn [map] in E2. rewrite last_snoc in E2. injection E2 as ->. eauto.
  - intros [l H]. rewrite (gives_roots _ _ H). cbn [bind bs_stack bs_root]. rewrite map_app. cbn [map]. now rewrite last_snoc.
Qed.
(** Otherwise the error tells the first event that cannot be, by where it stands; or that something
    is not ended; or that there is nothing. *)
Lemma items_empty P evs : gives_items P evs [] -> evs = [].
Proof. intros H. inversion H as [|? l ? ? ? ? E1 E2]; [reflexivity|]. now destruct l. Qed.
Lemma apply_err evs e : apply_events (BState [] None) evs = Err e <->
  exists pre x post ps, evs = pre ++ x :: post /\ within False pre ps /\ cannot_build ps x e.
Proof.
  split.
  - induction evs as [|x evs IH] using rev_ind; intros H; [discriminate H|]. rewrite apply_events_app in H.
    destruct (apply_events (BState [] None) evs) as [[st root]|y] eqn:E; cbn [bind apply_events] in H.
    + destruct (apply_event (BState st root) x) as [s'|y] eqn:E'; [discriminate H|]. injection H as ->. exists evs, x, [], (map place_of st).
      split; [reflexivity|]. split; [|now apply (refused st root)]. apply within_stands. exists st, root. split; [|reflexivity]. now apply (apply_stands evs (BState st root)).
    + injection H as ->. destruct (IH eq_refl) as (pre & x' & post & ps & -> & H). exists pre, x', (post ++ [x]), ps. rewrite <- app_assoc. auto.
  - intros (pre & x & post & ps & -> & Hw & Hc). apply within_stands in Hw as (st & root & Hs & ->). rewrite apply_events_app, (stands_apply _ _ _ Hs). cbn [bind apply_events].
    apply (refused st root) in Hc. now rewrite Hc.
Qed.
Theorem C60_build_fails : forall (evs : list event) (e : err),
  build_node_from_events evs = Err e <->
    (exists pre x post ps, evs = pre ++ x :: post /\ within False pre ps /\ cannot_build ps x e) \/
    (exists p ps, within False evs (p :: ps) /\ e = EIncomplete) \/
    (evs = [] /\ e = ENoRoot).
Proof.
  intros evs e. rewrite <- apply_err. unfold build_node_from_events. destruct (apply_events (BState [] None) evs) as [[st root]|x] eqn:E; cbn [bind bs_stack bs_root].
  - pose proof E as E'. apply apply_stands in E'. cbn [bs_stack bs_root] in E'. split.
    + destruct st as [|c st].
      * destruct root as [n|]; [discriminate|]. intros H. injection H as <-. right. right. split; [|reflexivity]. apply stands_outside in E' as (l & Hl & E2).
        destruct l as [|x l _] using rev_ind; [eapply items_empty; exact Hl|]. rewrite map_app in E2. cbn [map] in E2. rewrite last_snoc in E2. discriminate E2.
      * intros H. injection H as <-. right. left. exists (place_of c), (map place_of st). split; [|reflexivity]. apply within_stands. exists (c :: st), root. auto.
    + intros [H|[(p & ps & H & ->)|[-> ->]]]; [discriminate H| |].
      * apply within_stands in H as (st' & root' & H & Ep). apply stands_apply in H. rewrite E in H. injection H as <- <-. destruct st; [discriminate Ep|reflexivity].
      * injection E as <- <-. reflexivity.
  - split; [intros H; injection H as ->; auto|]. intros [H|[(p & ps & H & _)|[-> _]]]; [injection H as ->; reflexivity| |discriminate E].
    apply within_stands in H as (st' & root' & H & _). apply stands_apply in H. congruence.
Qed.
(** The writer accepts any number of values, and arrays and objects without key in objects. *)
Theorem C60_written : forall (st : num_style) (indent : nat) (evs : list event),
  (exists chunks, json_stream_from_events st evs indent = Ok chunks) <-> exists l, gives_items True evs l.
Proof.
  intros st indent evs. unfold json_stream_from_events. rewrite loop_srun. split.
  - destruct (srun st indent evs [] 0) as [[[out stack] depth]|] eqn:E; cbn [bind]; [|intros [? H]; discriminate H].
    destruct stack; [|intros [? H]; discriminate H]. intros _. apply goes_within in E. inversion E; subst. eauto.
  - intros [l H]. destruct (roots_goes st indent _ _ H 0) as (out & s & E & Hp). destruct s; [|discriminate Hp]. rewrite E. cbn [bind is_empty]. eauto.
Qed.
Theorem C60_write_fails : forall (st : num_style) (indent : nat) (evs : list event) (e : err),
  json_stream_from_events st evs indent = Err e <->
    (exists pre x post ps o, evs = pre ++ x :: post /\ within True pre ps /\ cannot_write ps x o /\ e = EJsonStream o) \/
    (exists p ps, within True evs (p :: ps) /\ e = EJsonStream OEnd).
Proof.
  intros st indent evs e. rewrite <- (srun_err st indent). unfold json_stream_from_events. rewrite loop_srun.
  destruct (srun st indent evs [] 0) as [[[out stack] depth]|x] eqn:E; cbn [bind].
  - pose proof (goes_within _ _ _ _ _ _ E) as Hw. split.
    + destruct stack as [|c stack]; cbn [is_empty]; [discriminate|]. intros H. injection H as <-. right. cbn [map] in Hw. eauto.
    + intros [H|(p & ps & H & ->)]; [discriminate H|]. destruct (within_goes st indent _ _ H) as (o2 & s2 & d2 & E2 & Hp). rewrite E in E2. injection E2 as <- <- <-.
      destruct stack; [discriminate Hp|reflexivity].
  - split; [intros H; injection H as ->; auto|]. intros [H|(p & ps & H & _)]; [injection H as ->; reflexivity|]. destruct (within_goes st indent _ _ H) as (o2 & s2 & d2 & E2 & Hp). congruence.
Qed.
(** What can be built can be written. *)
Theorem C60_builder_is_stricter : forall (st : num_style) (indent : nat) (evs : list event) (n : node),
  build_node_from_events evs = Ok n -> exists chunks, json_stream_from_events st evs indent = Ok chunks.
Proof. intros st indent evs n H. apply C60_built in H as [l H]. apply C60_written. apply tight_loose in H. eauto. Qed.
(** One sequence after another: the last value is built; the texts are written one after the other. *)
Lemma srun_depth st indent evs : forall stack depth out stack' depth', srun st indent evs stack depth = Ok (out, stack', depth') ->
  depth = length stack -> depth' = length stack'.
Proof.
  induction evs as [|e evs IH]; intros stack depth out stack' depth' H Hd; cbn [srun] in H; [injection H as <- <- <-; exact Hd|].
  destruct (stream_event st indent e stack depth) as [[[o1 s1] d1]|] eqn:E; cbn [bind] in H; [|discriminate H].
  destruct (srun st indent evs s1 d1) as [[[o2 s2] d2]|] eqn:E2; cbn [bind] in H; [|discriminate H]. injection H as _ <- <-. apply (IH _ _ _ _ _ E2).
  assert (C : forall s, length (close_value s) = length s) by (intros [|[] s]; reflexivity).
  destruct e as [| |n| |k w|p]; cbn [stream_event] in E; try (destruct stack as [|[nc [|]|nc] stack]; try discriminate E); injection E as _ <- <-; cbn [length] in *; rewrite ?C; lia.
Qed.
Theorem C60_one_after_another :
  forall (a b : list event),
    (forall n m, build_node_from_events a = Ok n -> build_node_from_events b = Ok m -> build_node_from_events (a ++ b) = Ok m) /\
    (forall st indent ca cb, json_stream_from_events st a indent = Ok ca -> json_stream_from_events st b indent = Ok cb ->
       json_stream_from_events st (a ++ b) indent = Ok (ca ++ cb)).
Proof.
  intros a b. split.
  - intros n m Ha Hb. apply C60_built in Ha as [l Ha]. apply C60_built in Hb as [l' Hb]. apply C60_built. exists ((l ++ [n]) ++ l').
    rewrite <- app_assoc. clear - Ha Hb. induction Hb as [|evs k e v H IH He]; [now rewrite !app_nil_r|]. rewrite !app_assoc. constructor; assumption.
  - intros st indent ca cb. unfold json_stream_from_events. rewrite !loop_srun, srun_app.
    destruct (srun st indent a [] 0) as [[[o1 s1] d1]|] eqn:E1; cbn [bind]; [|discriminate]. destruct s1; cbn [is_empty]; [|discriminate].
    rewrite (srun_depth _ _ _ _ _ _ _ _ E1 eq_refl). cbn [length]. intros H. injection H as ->.
    destruct (srun st indent b [] 0) as [[[o2 s2] d2]|] eqn:E2; cbn [bind]; [|discriminate]. destruct s2; cbn [is_empty]; [|discriminate]. intros H. injection H as ->. reflexivity.
Qed.
(** Events that describe one value are among these. *)
Lemma describes_gives P :
  (forall evs v, describes P evs v -> exists n, gives False evs n /\ node_to_json n = v) /\
  (forall evs vs, describes_items P evs vs -> forall pre l, gives_items False pre l ->
     exists k, gives_items False (pre ++ evs) (l ++ k) /\ map node_to_json k = vs) /\
  (forall evs ms, describes_entries P evs ms -> forall pre es q, gives_members False pre es q None ->
     exists k q', gives_members False (pre ++ evs) (es ++ k) q' None /\ map (fun kv => (fst kv, node_to_json (snd kv))) k = ms).
Proof.
  apply describes_mutind.
  - intros p. exists (NPrim p). split; [constructor|reflexivity].
  - intros n evs items _ IH _. destruct (IH [] [] (gi_nil _)) as (k & H & <-). exists (NArr k). split; [now constructor|reflexivity].
  - intros evs entries _ IH. destruct (IH [] [] [] (gm_nil _)) as (k & q & H & <-). exists (NObj k q). split; [econstructor; exact H|reflexivity].
  - intros pre l H. exists []. rewrite !app_nil_r. auto.
  - intros e1 v e2 vs _ (n & Hn & <-) _ IH pre l H. destruct (IH (pre ++ e1) (l ++ [n])) as (k & Hk & <-); [now constructor|].
    exists (n :: k). rewrite <- !app_assoc in Hk. auto.
  - intros pre es q H. exists [], q. rewrite !app_nil_r. auto.
  - intros k w e1 v e2 ms _ (n & Hn & <-) _ IH pre es q H.
    destruct (IH ((pre ++ [EvKey k w]) ++ e1) (es ++ [(k, n)]) (remember w k q)) as (l & q' & Hl & <-); [econstructor; [econstructor; exact H|exact Hn]|].
    exists ((k, n) :: l), q'. rewrite <- !app_assoc in Hl. auto.
Qed.
Theorem C60_proper_sequences :
  forall (P : N -> nat -> Prop) (evs : list event) (v : json), describes P evs v ->
    exists n, gives False evs n /\ node_to_json n = v.
Proof. intros P. exact (proj1 (describes_gives P)). Qed.
(** The messages tell the errors apart. *)
Theorem C60_messages :
  (forall evs evs' e e', build_node_from_events evs = Err e -> build_node_from_events evs' = Err e' -> message e = message e' -> e = e') /\
  (forall st indent evs evs' e e', json_stream_from_events st evs indent = Err e -> json_stream_from_events st evs' indent = Err e' -> message e = message e' -> e = e') /\
  (forall evs e, build_node_from_events evs = Err e -> exists m, message e = Some m /\ m <> []) /\
  (forall st indent evs e, json_stream_from_events st evs indent = Err e -> exists m, message e = Some m /\ m <> []).
Proof.
  assert (B : forall evs e, build_node_from_events evs = Err e ->
    In e [EUnexpectedEvent OEndObject; EUnexpectedEvent OEndArray; EUnexpectedEvent OKey; EMismatchedEnd OEndObject; EMismatchedEnd OEndArray;
          ENoKey OEndObject; ENoKey OEndArray; ENoKey OPrim; EIncomplete; ENoRoot]).
  { intros evs e H. apply C60_build_fails in H as [(pre & x & post & ps & _ & _ & H)|[(p & ps & _ & ->)|[_ ->]]]; [inversion H|..]; cbn [In]; tauto. }
  assert (W : forall st indent evs e, json_stream_from_events st evs indent = Err e -> exists o, e = EJsonStream o).
  { intros st indent evs e H. apply C60_write_fails in H as [(pre & x & post & ps & o & _ & _ & _ & ->)|(p & ps & _ & ->)]; eauto. }
  split; [|split; [|split]].
  - intros evs evs' e e' H H' M. apply B in H, H'. cbn [In] in H, H'.
    repeat (destruct H as [<-|H]); try contradiction H; repeat (destruct H' as [<-|H']); try contradiction H'; try reflexivity; discriminate M.
  - intros st indent evs evs' e e' H H' M. apply W in H as [o ->], H' as [o' ->]. destruct o, o'; try reflexivity; discriminate M.
  - intros evs e H. apply B in H. cbn [In] in H. repeat (destruct H as [<-|H]); try contradiction H; (eexists; split; [reflexivity|discriminate]).
  - intros st indent evs e H. apply W in H as [o ->]. destruct o; (eexists; split; [reflexivity|discriminate]).
Qed.
Print Assumptions C60_built.
Print Assumptions C60_build_fails.
Print Assumptions C60_written.
Print Assumptions C60_write_fails.
Print Assumptions C60_builder_is_stricter.
Print Assumptions C60_one_after_another.
Print Assumptions C60_proper_sequences.
Print Assumptions C60_messages.

(** A repeated key, a key without value, two values; what only the writer takes; refusals. *)
Example C60_example :
  let k := fun s => EvKey s false in
  let q := fun s => EvKey s true in
  let one := EvPrim (PBool true) in
  build_node_from_events [one; EvStartObject; k (lit "a"); q (lit "b"); one; q (lit "c"); EvEndObject] = Ok (NObj [(lit "b", NPrim (PBool true))] [lit "c"; lit "b"]) /\
  build_node_from_events [EvStartObject; k (lit "a"); EvStartArray 7; one; EvEndArray; EvStartArray 0; EvEndArray] = Err (ENoKey OEndArray) /\
  build_node_from_events [EvStartArray 1; EvStartObject; EvEndArray] = Err (EMismatchedEnd OEndArray) /\
  build_node_from_events [EvStartArray 1; k (lit "a")] = Err (EUnexpectedEvent OKey) /\
  build_node_from_events [one; EvStartArray 1] = Err EIncomplete /\
  json_stream_from_events usual_style [EvStartObject; EvStartObject; k (lit "x"); k (lit "y"); one; EvEndObject; EvEndObject; one] 0
    = Ok [lit "{"; lit "{"; lit """x"""; lit ":"; lit ","; lit """y"""; lit ":"; lit "true"; lit "}"; lit "}"; lit "true"] /\
  json_stream_from_events usual_style [EvStartObject; one; EvEndObject] 2 = Err (EJsonStream OPrim) /\
  json_stream_from_events usual_style [EvStartArray 0] 2 = Err (EJsonStream OEnd).
Proof. cbv zeta. do 7 (split; [vm_compute; reflexivity|]). vm_compute. reflexivity. Qed.
Example C60_example_within :
  let one := EvPrim (PBool true) in
  within False [one; EvStartObject; EvKey (lit "a") false; EvStartArray 7; one] [InArray; InObject true] /\
  gives_items False [EvStartObject; EvKey (lit "a") true; one; EvEndObject] [NObj [(lit "a", NPrim (PBool true))] [lit "a"]].
Proof.
  cbv zeta. split.
  - apply (wi_array False [EvPrim (PBool true); EvStartObject; EvKey (lit "a") false] _ 7 [EvPrim (PBool true)] [NPrim (PBool true)]).
    + apply (wi_object False [EvPrim (PBool true)] [] [EvKey (lit "a") false] [] [] (Some (lit "a"))).
      * apply (wi_outside False _ [NPrim (PBool true)]). apply (gi_item False [] [] _ _ (gi_nil _)). constructor.
      * apply (gm_key False [] [] [] None _ false). constructor.
    + apply (gi_item False [] [] _ _ (gi_nil _)). constructor.
  - apply (gi_item False [] [] _ _ (gi_nil _)). apply (gv_object False [EvKey (lit "a") true; EvPrim (PBool true)] _ _ None).
    apply (gm_value False [EvKey (lit "a") true] [] _ (lit "a")); [|constructor]. apply (gm_key False [] [] [] None _ true). constructor.
Qed.
