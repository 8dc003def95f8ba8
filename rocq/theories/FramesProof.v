(** The counted decoder of DecFrames.v: it gives what the decoder gives, and how far it nests. *)
From Verif Require Import Chars Floats Json Shared Scanner Parser DecValidation Decoders DecFrames DecRel DecProps
  SpecText SpecRead ReadProof PropsNest.

Local Open Scope nat_scope.

(** * The same outcome *)
Lemma fst_andthen {A B} (m : counted A) (f : A -> counted B) : fst (andthen m f) = bind (fst m) (fun a => fst (f a)).
Proof. unfold andthen, bind. now destruct (fst m). Qed.
Lemma bind_same {A B} (r r' : result A) (f f' : A -> result B) : r = r' -> (forall a, f a = f' a) -> bind r f = bind r' f'.
Proof. intros -> H. destruct r'; cbn; auto. Qed.

Ltac same :=
  match goal with
  | |- fst (here _) = _ => reflexivity
  | |- fst (call _) = _ => cbn [call fst]
  | H : forall _, _ |- fst _ = _ => apply H
  | |- fst (andthen _ _) = bind _ _ => rewrite fst_andthen; apply bind_same; [|intros]
  | |- fst (let (_, _) := ?p in _) = _ => destruct p
  | |- fst (if ?b then _ else _) = _ => destruct b
  | |- fst (match ?p with _ => _ end) = _ => destruct p
  end.

Lemma frames_same cx : forall fuel,
  (forall a c d, fst (key_value_frames fuel a c d cx) = decode_key_value fuel a c d cx) /\
  (forall c d cd, fst (object_fields_frames fuel c d cd cx) = decode_object_fields fuel c d cd cx) /\
  (forall h iv c d, fst (array_from_header_frames fuel h iv c d cx) = decode_array_from_header fuel h iv c d cx) /\
  (forall c d len n g, fst (list_items_frames fuel c d len n g cx) = decode_list_items fuel c d len n g cx) /\
  (forall c d, fst (list_item_frames fuel c d cx) = decode_list_item fuel c d cx) /\
  (forall c d, fst (follow_frames fuel c d cx) = decode_follow fuel c d cx).
Proof.
  induction fuel as [|fuel (Ikv & Iof & Iar & Iit & Ii & Ifo)]; [repeat split|].
  repeat split; intros;
    cbn [decode_key_value decode_object_fields decode_array_from_header decode_list_items decode_list_item decode_follow
         key_value_frames object_fields_frames array_from_header_frames list_items_frames list_item_frames follow_frames];
    cbv zeta; repeat same.
Qed.
Lemma root_same cx : forall fuel c, fst (root_fields_frames fuel c cx) = decode_root_fields fuel c cx.
Proof.
  induction fuel as [|fuel IH]; intros c; [reflexivity|]. destruct (frames_same cx fuel) as (Ikv & _).
  cbn [decode_root_fields root_fields_frames]. repeat same.
Qed.
Lemma lines_same lines cx : fst (lines_frames lines cx) = decode_lines lines cx.
Proof.
  destruct lines as [|first rest]; [reflexivity|]. unfold lines_frames, decode_lines.
  generalize (dec_fuel (first :: rest)) as fuel. intros fuel.
  destruct (frames_same cx fuel) as (Ikv & _ & Iar & _). pose proof (root_same cx fuel) as Ir. cbv zeta. repeat same.
Qed.
Lemma stream_same source o : fst (stream_frames source o) = decode_stream_sync source o.
Proof.
  unfold stream_frames, decode_stream_sync. cbv zeta. pose proof lines_same as L. repeat same.
Qed.

(** * How far it nests *)
Definition upto {A} (B : nat) (P : A -> Prop) (m : counted A) : Prop :=
  snd m <= B /\ forall a, fst m = Ok a -> P a.
Lemma upto_here {A} B (P : A -> Prop) r : (forall a, r = Ok a -> P a) -> upto B P (here r).
Proof. split; cbn; [lia|auto]. Qed.
Lemma upto_call {A} B C (P : A -> Prop) m : upto C P m -> C < B -> upto B P (call m).
Proof. intros [L H] LB. split; cbn [call fst snd]; [lia|auto]. Qed.
Lemma upto_le {A} B C (P : A -> Prop) m : upto C P m -> C <= B -> upto B P m.
Proof. intros [L H] LB. split; [lia|auto]. Qed.
Lemma upto_andthen {A B} n (P : A -> Prop) (Q : B -> Prop) m f :
  upto n P m -> (forall a, P a -> upto n Q (f a)) -> upto n Q (andthen m f).
Proof.
  intros [L H] K. unfold andthen, upto. destruct (fst m) as [a|e]; cbn [fst snd].
  - destruct (K a (H a eq_refl)) as [L' H']. split; [lia|auto].
  - split; [lia|discriminate].
Qed.

Section Bound.
Variable D : nat.
Definition low (c : cursor) : Prop := Forall (fun l => pl_depth l <= D) (cu_rest c).
Lemma low_peek c line : low c -> peek c = Some line -> pl_depth line <= D.
Proof. unfold low, peek. destruct (cu_rest c); [discriminate|]. cbn. intros H [= <-]. now inversion H. Qed.
Lemma low_suffix c c' : suffix_of c' c -> low c -> low c'.
Proof. intros [p E]. unfold low. rewrite E, Forall_app. tauto. Qed.
Lemma low_advance c : low c -> low (advance c).
Proof. apply low_suffix, suffix_advance. Qed.

Definition post2 (a : list event * cursor) : Prop := low (snd a).
Definition post4 (a : list event * cursor * N * option (nat * nat)) : Prop := low (snd (fst (fst a))).
Definition post0 {A} (a : A) : Prop := True.

Ltac go :=
  match goal with
  | H : ?x |- ?x => exact H
  | |- upto _ _ (here _) => apply upto_here; intros ? E; try (injection E as <-); try exact I; auto
  | |- upto _ _ (andthen (here _) _) => apply (upto_andthen _ post0); [apply upto_here; intros; exact I|intros ? _]
  | |- upto _ _ (@andthen (list event * cursor * N * option (nat * nat)) _ _ _) => apply (upto_andthen _ post4); [|intros [[[? ?] ?] ?] ?; unfold post4 in *; cbn [fst snd] in *]
  | |- upto _ _ (@andthen (list event * cursor) _ _ _) => apply (upto_andthen _ post2); [|intros [? ?] ?; unfold post2 in *; cbn [fst snd] in *]
  | |- upto _ _ (let (_, _) := ?p in _) => destruct p
  | |- upto _ _ (if ?b then _ else _) => destruct b eqn:?
  | |- upto _ _ (match ?p with _ => _ end) => destruct p eqn:?
  end.

Lemma bound cx : forall fuel,
  (forall a c d, low c -> upto (3 * (D - d) + 2 + Nat.min 1 (D - d)) post2 (key_value_frames fuel a c d cx)) /\
  (forall c d cd, low c -> upto (3 * (D - d) + 3 + Nat.min 1 (D - d)) post2 (object_fields_frames fuel c d cd cx)) /\
  (forall h iv c d, low c -> upto (3 * (D - d) + 1 + Nat.min 1 (D - d)) post2 (array_from_header_frames fuel h iv c d cx)) /\
  (forall c d len n g, low c -> upto (3 * (S D - d) + Nat.min 1 (S D - d)) post4 (list_items_frames fuel c d len n g cx)) /\
  (forall c d, low c -> d <= D -> upto (3 * (D - d) + 3) post2 (list_item_frames fuel c d cx)) /\
  (forall c d, low c -> upto (3 * (D - d) + Nat.min 4 (4 * (S D - d))) post2 (follow_frames fuel c d cx)).
Proof.
  induction fuel as [|fuel (Ikv & Iof & Iar & Iit & Ii & Ifo)];
    [repeat split; intros; cbn; try lia; discriminate|].
  split; [|split; [|split; [|split; [|split]]]]; intros;
    cbn [key_value_frames object_fields_frames array_from_header_frames list_items_frames list_item_frames follow_frames];
    cbv zeta; repeat go.
  all: repeat match goal with
         | H : Nat.ltb _ _ = true |- _ => apply Nat.ltb_lt in H
         | H : Nat.ltb _ _ = false |- _ => apply Nat.ltb_ge in H
         | H : _ && _ = true |- _ => apply andb_prop in H as [H ?]
         | H : Nat.eqb _ _ = true |- _ => apply Nat.eqb_eq in H
         | H : (match peek ?c with _ => _ end) = true |- _ => destruct (peek c) eqn:?; [|discriminate]
         end.
  all: try match goal with H : peek ?c = Some _, L : low ?c |- _ => pose proof (low_peek _ _ L H) end.
  all: try match goal with |- upto _ _ (call (andthen _ _)) =>
         apply (upto_call _ (3 * (S D - S d) + Nat.min 1 (S D - S d))); [|lia]; repeat go end.
  all: try (eapply upto_call; [solve [auto using low_advance]|lia]).
  all: try (eapply upto_le; [solve [auto using low_advance]|lia]).
  all: try (unfold post2; cbn [snd]; solve [auto using low_advance]).
  all: try discriminate.
  all: try (match goal with a : (list event * cursor)%type |- _ => destruct a end; unfold post2; cbn [snd];
            eapply low_suffix; [eapply decode_tabular_suffix; eassumption|assumption]).
eapply upto_call; [apply Ii; [assumption|lia]|lia].
Qed.

Lemma root_bound cx : forall fuel c, low c -> upto (3 * D + 3 + Nat.min 1 D) post2 (root_fields_frames fuel c cx).
Proof.
  induction fuel as [|fuel IH]; intros c H; [split; cbn; [lia|discriminate]|].
  destruct (bound cx fuel) as (Ikv & _). cbn [root_fields_frames]. repeat go.
  - eapply upto_call; [apply Ikv, low_advance, H|lia].
  - apply IH; assumption.
Qed.
Lemma lines_bound lines cx : Forall (fun l => pl_depth l <= D) lines -> upto (3 * D + 3 + Nat.min 1 D) post2 (lines_frames lines cx).
Proof.
  intros F. destruct lines as [|first rest]; [split; cbn; [lia|intros ? [= <-]; constructor]|].
  unfold lines_frames. generalize (dec_fuel (first :: rest)) as fuel. intros fuel. inversion F; subst.
  destruct (bound cx fuel) as (Ikv & _ & Iar & _). pose proof (root_bound cx fuel) as Ir. cbv zeta. repeat go.
  - eapply upto_call; [apply Iar; assumption|lia].
  - eapply upto_call; [apply Ikv; assumption|lia].
  - apply Ir; assumption.
Qed.
End Bound.

(** * How far it must nest *)
Definition least {A} (P : A -> nat -> Prop) (m : counted A) : Prop := forall a, fst m = Ok a -> P a (snd m).
Lemma least_here {A} (P : A -> nat -> Prop) r : (forall a, r = Ok a -> P a 0) -> least P (here r).
Proof. intros H a E. cbn in *. auto. Qed.
Lemma least_call {A} (P Q : A -> nat -> Prop) m : least P m -> (forall a n, P a n -> Q a (S n)) -> least Q (call m).
Proof. intros H K a E. cbn [call fst snd] in *. auto. Qed.
(** [f] is told how many calls were open before it. *)
Lemma least_andthen {A B} (P : A -> nat -> Prop) (Q : B -> nat -> Prop) m f :
  least P m -> (forall a n, P a n -> least (fun b k => forall j, n <= j -> k <= j -> Q b j) (f a)) -> least Q (andthen m f).
Proof.
  intros H K b E. unfold andthen in *. destruct (fst m) as [a|e] eqn:Em; [|discriminate]. cbn [fst snd] in *.
  eapply (K a (snd m)); eauto; lia.
Qed.

Definition shallow (n : nat) (ms : list (str * bool * tree)) : Prop := Forall (fun m => depth (snd m) <= n) ms.
Lemma shallow_le n k ms : shallow n ms -> n <= k -> shallow k ms.
Proof. intros H L. eapply Forall_impl; [|exact H]. cbn. lia. Qed.
Lemma obj_depth n ms : shallow n ms -> depth (TObj ms) <= S n.
Proof. intros H. cbn [depth]. enough (list_max (map (fun m => depth (snd m)) ms) <= n) by lia. apply max_below, Forall_map, H. Qed.
Lemma arr_depth n len vs : Forall (fun v => depth v <= n) vs -> depth (TArr len vs) <= S n.
Proof. intros H. cbn [depth]. enough (list_max (map depth vs) <= n) by lia. apply max_below, Forall_map, H. Qed.

Definition kv_post (a : list event * cursor) (n : nat) : Prop :=
  exists m, fst a = member_events m /\ depth (snd m) <= S n.
Definition ms_post (a : list event * cursor) (n : nat) : Prop :=
  exists ms, fst a = flat_map member_events ms /\ shallow n ms.
Definition tree_post (a : list event * cursor) (n : nat) : Prop :=
  exists v, fst a = tree_events v /\ depth v <= S (S n).
Definition items_post (a : list event * cursor * N * option (nat * nat)) (n : nat) : Prop :=
  exists vs, fst (fst (fst a)) = flat_map tree_events vs /\ Forall (fun v => depth v <= S n) vs.

Lemma row_tree fs ps : exists ms, yield_object_from_fields fs ps = tree_events (TObj ms) /\ shallow 0 ms.
Proof.
  unfold yield_object_from_fields. revert ps. induction fs as [|f fs IH]; intros ps.
  - exists []. split; [reflexivity|constructor].
  - cbn [field_events]. destruct (IH (tl ps)) as (ms & E & F). rewrite tree_events_obj in E. injection E as E.
    exists ((fn_name f, fn_quoted f, TPrim match ps with p :: _ => p | [] => PNull end) :: ms).
    rewrite tree_events_obj. cbn [flat_map member_events fst snd tree_events app]. rewrite <- E. split; [reflexivity|].
    constructor; [cbn; lia|exact F].
Qed.
Lemma rows_trees {A} fs (rows : list (A * list prim)) :
  exists vs, flat_map (fun r => yield_object_from_fields fs (snd r)) rows = flat_map tree_events vs /\
             Forall (fun v => depth v <= 1) vs.
Proof.
  induction rows as [|r rows (vs & E & F)]; [exists []; now split|]. destruct (row_tree fs (snd r)) as (ms & E' & F').
  exists (TObj ms :: vs). cbn [flat_map]. rewrite E, E'. split; [reflexivity|]. constructor; [apply obj_depth, F'|exact F].
Qed.
Lemma tabular_tree h f c d cx evs c' : decode_tabular_array h f c d cx = Ok (evs, c') ->
  exists vs, evs = flat_map tree_events vs /\ Forall (fun v => depth v <= 1) vs.
Proof. intros H. apply decode_tabular_spec in H as (rows & _ & -> & _). apply rows_trees. Qed.
Lemma inline_trees h iv cx evs : decode_inline_primitive_array h iv cx = Ok evs ->
  exists vs, evs = flat_map tree_events vs /\ Forall (fun v => depth v <= 0) vs.
Proof.
  intros H. apply inline_spec in H as (ps & -> & _). exists (map TPrim ps).
  split; [|apply Forall_map, Forall_forall; cbn; auto]. induction ps; cbn; congruence.
Qed.
Definition arr_post (a : list event * cursor) (n : nat) : Prop :=
  exists vs, fst a = flat_map tree_events vs /\ Forall (fun v => depth v <= S n) vs.

Lemma prim_member k q p c n : kv_post ([EvKey k q; EvPrim p], c) n.
Proof. exists (k, q, TPrim p). split; [reflexivity|cbn; lia]. Qed.
Lemma empty_member k q c n : kv_post ([EvKey k q; EvStartObject; EvEndObject], c) n.
Proof. exists (k, q, TObj []). split; [reflexivity|cbn; lia]. Qed.
Lemma empty_item c n : tree_post ([EvStartObject; EvEndObject], c) n.
Proof. exists (TObj []). split; [reflexivity|cbn; lia]. Qed.
Lemma prim_item p c n : tree_post ([EvPrim p], c) n.
Proof. exists (TPrim p). split; [reflexivity|cbn; lia]. Qed.

Lemma obj_item m ms e j c : e = member_events m -> depth (snd m) <= S j -> shallow (S j) ms ->
  tree_post (EvStartObject :: e ++ flat_map member_events ms ++ [EvEndObject], c) j.
Proof.
  intros -> Hm Hs. exists (TObj (m :: ms)). split.
  - cbn [fst]. rewrite tree_events_obj. cbn [flat_map]. now rewrite <- app_assoc.
  - apply obj_depth. now constructor.
Qed.

Definition any {A} (a : A) (n : nat) : Prop := True.

Ltac le :=
  match goal with
  | |- least _ (here (Err _)) => intros ? E; discriminate E
  | |- least _ (andthen (here _) _) => apply (least_andthen any); [intros ? ?; exact I|intros ? ? _]
  | |- least _ (let (_, _) := ?p in _) => destruct p
  | |- least _ (if ?b then _ else _) => destruct b
  | |- least _ (match ?p with _ => _ end) => destruct p
  end.
Ltac fin := intros ? E; injection E as <-; intros.
Ltac opn := match goal with a : (_ * _)%type |- _ => destruct a end.

Lemma need cx : forall fuel,
  (forall a c d, least kv_post (key_value_frames fuel a c d cx)) /\
  (forall c d cd, least ms_post (object_fields_frames fuel c d cd cx)) /\
  (forall h iv c d, least tree_post (array_from_header_frames fuel h iv c d cx)) /\
  (forall c d len n g, least items_post (list_items_frames fuel c d len n g cx)) /\
  (forall c d, least tree_post (list_item_frames fuel c d cx)) /\
  (forall c d, least ms_post (follow_frames fuel c d cx)).
Proof.
  induction fuel as [|fuel (Ikv & Iof & Iar & Iit & Ii & Ifo)];
    [repeat split; intros; intros ? E; discriminate E|].
  split; [|split; [|split; [|split; [|split]]]]; intros;
    cbn [key_value_frames object_fields_frames array_from_header_frames list_items_frames list_item_frames follow_frames];
    cbv zeta.
  - repeat le; try solve [fin; auto using prim_member, empty_member].
    1: { eapply least_andthen; [apply least_call with (Q := fun a n => exists k, n = S k /\ tree_post a k) (1 := Iar _ _ _ _); eauto|].
         intros [evs c'] nn (k & -> & v & Ev & Hd). cbn [fst] in Ev. subst evs. fin.
         eexists (_, _, v). split; [reflexivity|]. cbn [snd]. lia. }
    all: eapply least_andthen; [apply least_call with (Q := fun a n => exists k, n = S k /\ ms_post a k) (1 := Iof _ _ _); eauto|];
         intros [evs c'] nn (k & -> & ms & Ev & Hd); cbn [fst] in Ev; subst evs; fin;
         eexists (_, _, TObj ms); (split; [unfold member_events; cbn [fst snd]; rewrite tree_events_obj; reflexivity|]);
         cbn [snd]; apply obj_depth in Hd; lia.
  - repeat le; try solve [fin; exists []; split; [reflexivity|constructor]].
    eapply least_andthen; [apply least_call with (Q := fun a n => exists k, n = S k /\ kv_post a k) (1 := Ikv _ _ _); eauto|].
    intros [e1 c1] nn (k & -> & m & Ev & Hd). cbn [fst] in Ev. subst e1.
    eapply least_andthen; [apply Iof|]. intros [e2 c2] n' (ms & Ev & Hm). cbn [fst] in Ev. subst e2. fin.
    exists (m :: ms). split; [reflexivity|]. constructor; [lia|]. eapply shallow_le; [exact Hm|lia].
  - apply (least_andthen arr_post).
    + destruct iv as [iv|]; [|destruct (ah_fields h) as [[|f fs]|]].
      * intros [evs c'] E. cbn in E |- *. rewrite fst_andthen in E. cbn in E.
        destruct (decode_inline_primitive_array h iv cx) as [x|] eqn:Ei; [|discriminate]. injection E as <- <-.
        apply inline_trees in Ei as (vs & -> & F). exists vs. split; [reflexivity|]. eapply Forall_impl; [|exact F]. cbn. lia.
      * eapply least_call with (P := fun a n => exists vs, fst a = flat_map tree_events vs /\ Forall (fun v => depth v <= S n) vs).
        -- apply (least_andthen items_post); [apply Iit|]. intros [[[evs c'] n'] rg] j (vs & Ev & F). cbn [fst] in Ev. subst evs.
           repeat le. fin. exists vs. split; [reflexivity|]. eapply Forall_impl; [|exact F]. cbn. lia.
        -- intros [evs c'] nn (vs & Ev & F). exists vs. split; [exact Ev|]. eapply Forall_impl; [|exact F]. cbn. lia.
      * intros [evs c'] E. cbn [here fst snd] in *. apply tabular_tree in E as (vs & -> & F). exists vs. split; [reflexivity|].
        eapply Forall_impl; [|exact F]. cbn. lia.
      * eapply least_call with (P := fun a n => exists vs, fst a = flat_map tree_events vs /\ Forall (fun v => depth v <= S n) vs).
        -- apply (least_andthen items_post); [apply Iit|]. intros [[[evs c'] n'] rg] j (vs & Ev & F). cbn [fst] in Ev. subst evs.
           repeat le. fin. exists vs. split; [reflexivity|]. eapply Forall_impl; [|exact F]. cbn. lia.
        -- intros [evs c'] nn (vs & Ev & F). exists vs. split; [exact Ev|]. eapply Forall_impl; [|exact F]. cbn. lia.
    + intros [evs c'] nn (vs & Ev & F). cbn [fst] in Ev. subst evs. fin. exists (TArr (ah_length h) vs). split; [reflexivity|].
      apply (arr_depth _ (ah_length h)) in F. lia.
  - repeat le; try solve [fin; exists []; split; [reflexivity|constructor]].
    eapply least_andthen; [apply least_call with (Q := fun a n => exists k, n = S k /\ tree_post a k) (1 := Ii _ _); eauto|].
    intros [e1 c1] nn (k & -> & v & Ev & Hd). cbn [fst] in Ev. subst e1.
    eapply least_andthen; [apply Iit|]. intros [[[e2 c2] n2] rg] n' (vs & Ev & Hm). cbn [fst] in Ev. subst e2. fin.
    exists (v :: vs). split; [reflexivity|]. constructor; [lia|]. eapply Forall_impl; [|exact Hm]. cbn. lia.
  - repeat le; try solve [fin; auto using empty_item, prim_item].
    1: { apply least_call with (1 := Iar _ _ _ _). intros [evs c'] nn (v & Ev & Hd). intros. exists v. split; [exact Ev|lia]. }
    1: { eapply least_andthen; [apply least_call with (Q := fun a n => exists k, n = S k /\ tree_post a k) (1 := Iar _ _ _ _); eauto|].
      intros [e1 c1] nn (k & -> & v & Ev & Hd). cbn [fst] in Ev. subst e1.
      eapply least_andthen; [apply Ifo|]. intros [e2 c2] n' (ms & Ev & Hm). cbn [fst] in Ev. subst e2. fin.
      eapply (obj_item (_, _, v) ms (EvKey _ _ :: tree_events v)); [reflexivity|cbn [snd]; lia|eapply shallow_le; [exact Hm|lia]]. }
    all: eapply least_andthen; [apply least_call with (Q := fun a n => exists k, n = S k /\ kv_post a k) (1 := Ikv _ _ _); eauto|];
      intros [e1 c1] nn (k & -> & m & Ev & Hd); cbn [fst] in Ev; subst e1;
      eapply least_andthen; [apply Ifo|]; intros [e2 c2] n' (ms & Ev & Hm); cbn [fst] in Ev; subst e2; fin;
      apply (obj_item m ms (member_events m)); [reflexivity|lia|eapply shallow_le; [exact Hm|lia]].
  - repeat le; try solve [fin; exists []; split; [reflexivity|constructor]].
    eapply least_andthen; [apply least_call with (Q := fun a n => exists k, n = S k /\ kv_post a k) (1 := Ikv _ _ _); eauto|].
    intros [e1 c1] nn (k & -> & m & Ev & Hd). cbn [fst] in Ev. subst e1.
    eapply least_andthen; [apply Ifo|]. intros [e2 c2] n' (ms & Ev & Hm). cbn [fst] in Ev. subst e2. fin.
    exists (m :: ms). split; [reflexivity|]. constructor; [lia|]. eapply shallow_le; [exact Hm|lia].
Qed.
Lemma root_need cx : forall fuel c, least ms_post (root_fields_frames fuel c cx).
Proof.
  induction fuel as [|fuel IH]; intros c; [intros ? E; discriminate E|]. destruct (need cx fuel) as (Ikv & _).
  cbn [root_fields_frames]. repeat le; try solve [fin; exists []; split; [reflexivity|constructor]].
  eapply least_andthen; [apply least_call with (Q := fun a n => exists k, n = S k /\ kv_post a k) (1 := Ikv _ _ _); eauto|].
  intros [e1 c1] nn (k & -> & m & Ev & Hd). cbn [fst] in Ev. subst e1.
  eapply least_andthen; [apply IH|]. intros [e2 c2] n' (ms & Ev & Hm). cbn [fst] in Ev. subst e2. fin.
  exists (m :: ms). split; [reflexivity|]. constructor; [lia|]. eapply shallow_le; [exact Hm|lia].
Qed.
Lemma lines_need lines cx :
  least (fun a n => exists v, fst a = tree_events v /\ depth v <= S n) (lines_frames lines cx).
Proof.
  destruct lines as [|first rest]; [intros ? [= <-]; exists (TObj []); split; [reflexivity|cbn; lia]|].
  unfold lines_frames. generalize (dec_fuel (first :: rest)) as fuel. intros fuel.
  destruct (need cx fuel) as (Ikv & _ & Iar & _). pose proof (root_need cx fuel) as Ir. cbv zeta. repeat le.
  - apply least_call with (1 := Iar _ _ _ _). intros [evs c'] nn (v & Ev & Hd). intros. exists v. split; [exact Ev|lia].
  - fin. eexists (TPrim _). split; [reflexivity|cbn; lia].
  - eapply least_andthen; [apply least_call with (Q := fun a n => exists k, n = S k /\ kv_post a k) (1 := Ikv _ _ _); eauto|].
    intros [e1 c1] nn (k & -> & m & Ev & Hd). cbn [fst] in Ev. subst e1.
    eapply least_andthen; [apply Ir|]. intros [e2 c2] n' (ms & Ev & Hm). cbn [fst] in Ev. subst e2. fin.
    exists (TObj (m :: ms)). split.
    + cbn [fst]. rewrite tree_events_obj. cbn [flat_map]. now rewrite <- app_assoc.
    + etransitivity; [apply (obj_depth (Nat.max (S k) n')); constructor|lia]; [lia|]. eapply shallow_le; [exact Hm|lia].
Qed.

(** * By the number of lines *)
Definition left2 (m : nat) (a : list event * cursor) : Prop := length (cu_rest (snd a)) <= m.
Definition left4 (m : nat) (a : list event * cursor * N * option (nat * nat)) : Prop := length (cu_rest (snd (fst (fst a)))) <= m.

Ltac go2 m :=
  match goal with
  | |- upto _ _ (here _) => apply upto_here; intros ? E; try (injection E as <-); try exact I; auto
  | |- upto _ _ (andthen (here _) _) => apply (upto_andthen _ post0); [apply upto_here; intros; exact I|intros ? _]
  | |- upto _ _ (@andthen (list event * cursor * N * option (nat * nat)) _ _ _) => apply (upto_andthen _ (left4 m)); [|intros [[[? ?] ?] ?] ?; unfold left4 in *; cbn [fst snd] in *]
  | |- upto _ _ (@andthen (list event * cursor) _ _ _) => apply (upto_andthen _ (left2 m)); [|intros [? ?] ?; unfold left2 in *; cbn [fst snd] in *]
  | |- upto _ _ (let (_, _) := ?p in _) => destruct p
  | |- upto _ _ (if ?b then _ else _) => destruct b eqn:?
  | |- upto _ _ (match ?p with _ => _ end) => destruct p eqn:?
  end.
Lemma upto_weak {A} B C (P Q : A -> Prop) m : upto C P m -> C <= B -> (forall a, P a -> Q a) -> upto B Q m.
Proof. intros [L H] LB K. split; [lia|auto]. Qed.
Lemma upto_call_weak {A} B C (P Q : A -> Prop) m : upto C P m -> C < B -> (forall a, P a -> Q a) -> upto B Q (call m).
Proof. intros [L H] LB K. split; cbn [call fst snd]; [lia|auto]. Qed.

Lemma bound_lines cx : forall fuel,
  (forall a c d m, length (cu_rest c) <= m -> upto (4 * m + 2) (left2 m) (key_value_frames fuel a c d cx)) /\
  (forall c d cd m, length (cu_rest c) <= m -> upto (4 * m) (left2 m) (object_fields_frames fuel c d cd cx)) /\
  (forall h iv c d m, length (cu_rest c) <= m -> upto (4 * m + 1) (left2 m) (array_from_header_frames fuel h iv c d cx)) /\
  (forall c d len n g m, length (cu_rest c) <= m -> upto (4 * m) (left4 m) (list_items_frames fuel c d len n g cx)) /\
  (forall c d m, length (cu_rest c) <= S m -> upto (4 * m + 3) (left2 m) (list_item_frames fuel c d cx)) /\
  (forall c d m, length (cu_rest c) <= m -> upto (4 * m) (left2 m) (follow_frames fuel c d cx)).
Proof.
  induction fuel as [|fuel (Ikv & Iof & Iar & Iit & Ii & Ifo)];
    [repeat split; intros; cbn; try lia; discriminate|].
  split; [|split; [|split; [|split; [|split]]]]; intros;
    cbn [key_value_frames object_fields_frames array_from_header_frames list_items_frames list_item_frames follow_frames];
    cbv zeta; repeat go2 m.
  all: repeat match goal with
         | H : (match peek ?c with _ => _ end) = true |- _ => destruct (peek c) eqn:?; [|discriminate]
         end.
  all: try match goal with H : peek ?c = Some _ |- _ => pose proof (advance_length _ _ H) end.
  all: try match goal with |- upto _ _ (call (andthen _ _)) =>
         apply (upto_call _ (4 * m)); [|lia]; repeat go2 m end.
  all: try (destruct m as [|m]; [lia|]).
  all: try (eapply upto_call_weak; [solve [first [apply Ikv with (m := m)|apply Iof with (m := m)|apply Iar with (m := m)|apply Ii with (m := m)]; lia]|lia|unfold left2; intros; lia]).
  all: try (eapply upto_weak; [solve [first [apply Iof with (m := m)|apply Iit with (m := m)|apply Ifo with (m := m)]; lia]|lia|unfold left2, left4; intros; lia]).
  all: try (unfold left2; cbn [snd]; lia).
  all: try discriminate.
  all: try (apply Iof with (m := S m); lia).
  all: try (apply Iit with (m := S m); lia).
  all: try (apply Ifo with (m := S m); lia).
  all: try (eapply upto_call_weak; [apply Iof with (m := S m); lia|lia|unfold left2; intros; lia]).
  destruct a as [e c0]. unfold left2. cbn [snd]. match goal with H : decode_tabular_array _ _ _ _ _ = _ |- _ =>
    apply decode_tabular_suffix, suffix_length in H end. lia.
Qed.
Lemma root_lines_bound cx : forall fuel c m, length (cu_rest c) <= m -> upto (4 * m) (left2 m) (root_fields_frames fuel c cx).
Proof.
  induction fuel as [|fuel IH]; intros c m H; [split; cbn; [lia|discriminate]|].
  destruct (bound_lines cx fuel) as (Ikv & _). cbn [root_fields_frames]. repeat go2 m.
  - pose proof (advance_length _ _ Heqo). destruct m as [|m]; [lia|].
    eapply upto_call_weak; [apply Ikv with (m := m); lia|lia|unfold left2; intros; lia].
  - apply IH; assumption.
Qed.
Lemma lines_lines_bound lines cx : upto (4 * length lines - 1) post0 (lines_frames lines cx).
Proof.
  destruct lines as [|first rest]; [split; cbn; [lia|intros; exact I]|].
  unfold lines_frames. generalize (dec_fuel (first :: rest)) as fuel. intros fuel. cbn [length].
  destruct (bound_lines cx fuel) as (Ikv & _ & Iar & _). pose proof (root_lines_bound cx fuel) as Ir. cbv zeta.
  repeat go2 (length rest); try exact I.
  - eapply upto_call_weak; [apply Iar with (m := length rest); apply le_n|lia|intros; exact I].
  - eapply upto_call_weak; [apply Ikv with (m := length rest); apply le_n|lia|intros; assumption].
  - eapply upto_weak; [apply Ir with (m := length rest); assumption|lia|intros; assumption].
Qed.
