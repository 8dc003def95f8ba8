(** Building and writing sequences of events of any kind. *)
From Verif Require Import Chars Floats Json Folding EventBuilder JsonText SpecEvents.

Scheme gives_mind := Minimality for gives Sort Prop
  with items_mind := Minimality for gives_items Sort Prop
  with members_mind := Minimality for gives_members Sort Prop.
Combined Scheme gives_mutind from gives_mind, items_mind, members_mind.

Lemma apply_events_app s a b : apply_events s (a ++ b) = bind (apply_events s a) (fun s' => apply_events s' b).
Proof.
  revert s. induction a as [|e a IH]; intros s; [reflexivity|]. cbn [app apply_events bind]. destruct (apply_event s e); cbn [bind]; [apply IH|reflexivity].
Qed.

Notation tight := False.
(** * The builder *)
(** The events of a value attach it. *)
Lemma gives_apply :
  (forall evs n, gives tight evs n -> forall st root, apply_events (BState st root) evs = attach st root n) /\
  (forall evs l, gives_items tight evs l -> forall st root, apply_events (BState (BArr [] :: st) root) evs = Ok (BState (BArr l :: st) root)) /\
  (forall evs es q k, gives_members tight evs es q k -> forall st root, apply_events (BState (BObj [] None [] :: st) root) evs = Ok (BState (BObj es k q :: st) root)).
Proof.
  apply gives_mutind.
  - intros p st root. cbn [apply_events apply_event bs_stack bs_root]. destruct (attach st root (NPrim p)); reflexivity.
  - intros n evs l _ IH st root. cbn [apply_events apply_event bind bs_stack bs_root]. rewrite apply_events_app, IH. cbn [bind apply_events apply_event bs_stack bs_root].
    destruct (attach st root (NArr l)); reflexivity.
  - intros evs es q k _ IH st root. cbn [apply_events apply_event bind bs_stack bs_root]. rewrite apply_events_app, IH. cbn [bind apply_events apply_event bs_stack bs_root].
    destruct (attach st root (NObj es q)); reflexivity.
  - reflexivity.
  - intros evs l e v _ IH _ IHe st root. rewrite apply_events_app, IH. cbn [bind]. rewrite IHe. reflexivity.
  - reflexivity.
  - intros evs es q key k w _ IH st root. rewrite apply_events_app, IH. reflexivity.
  - intros evs es q k e v _ IH _ IHe st root. rewrite apply_events_app, IH. cbn [bind]. rewrite IHe. reflexivity.
  - intros evs es q e v [].
Qed.

(** The state after a sequence. *)
Inductive stands : list event -> list build_ctx -> option node -> Prop :=
| st_outside evs l : gives_items tight evs l -> stands evs [] (last (map Some l) None)
| st_array pre st root n evs l : stands pre st root -> gives_items tight evs l -> stands (pre ++ EvStartArray n :: evs) (BArr l :: st) root
| st_object pre st root evs es q key : stands pre st root -> gives_members tight evs es q key ->
    stands (pre ++ EvStartObject :: evs) (BObj es key q :: st) root.
Definition place_of (c : build_ctx) : place := match c with BObj _ key _ => InObject (keyed_by key) | BArr _ => InArray end.

Lemma last_snoc {A} (l : list A) x d : last (l ++ [x]) d = x.
Proof. apply last_last. Qed.
Lemma gives_roots evs l : gives_items tight evs l -> forall root, apply_events (BState [] root) evs = Ok (BState [] (last (map Some l) root)).
Proof.
  induction 1 as [|evs l e v H IH He]; intros root; [reflexivity|]. rewrite apply_events_app, IH. cbn [bind]. rewrite (proj1 gives_apply _ _ He).
  cbn [attach]. rewrite map_app; cbn [map]; now rewrite last_snoc.
Qed.
Lemma stands_apply evs st root : stands evs st root -> apply_events (BState [] None) evs = Ok (BState st root).
Proof.
  induction 1 as [evs l H|pre st root n evs l H IH Hl|pre st root evs es q key H IH Hm].
  - now rewrite (gives_roots _ _ H).
  - rewrite apply_events_app, IH. cbn [bind apply_events apply_event bs_stack bs_root]. now apply gives_apply.
  - rewrite apply_events_app, IH. cbn [bind apply_events apply_event bs_stack bs_root]. now apply gives_apply.
Qed.
Lemma stands_attach pre st root e v s : stands pre st root -> gives tight e v -> attach st root v = Ok s -> stands (pre ++ e) (bs_stack s) (bs_root s).
Proof.
  intros H He Ha. inversion H as [evs l Hl|pre' st' root' n evs l H' Hl|pre' st' root' evs es q key H' Hm]; subst; cbn [attach] in Ha.
  - injection Ha as <-. cbn [bs_stack bs_root]. replace (Some v) with (last (map Some (l ++ [v])) None) by (rewrite map_app; cbn [map]; now rewrite last_snoc).
    apply st_outside. now constructor.
  - injection Ha as <-. cbn [bs_stack bs_root]. rewrite <- app_assoc. cbn [app]. apply st_array; [exact H'|now constructor].
  - destruct key as [k|]; [|discriminate Ha]. injection Ha as <-. cbn [bs_stack bs_root]. rewrite <- app_assoc. cbn [app]. apply st_object; [exact H'|now constructor].
Qed.
Lemma stands_step evs st root e s : stands evs st root -> apply_event (BState st root) e = Ok s -> stands (evs ++ [e]) (bs_stack s) (bs_root s).
Proof.
  intros H Ha. destruct e as [| | n| |k w|p]; cbn [apply_event bs_stack bs_root] in Ha.
  - injection Ha as <-. cbn [bs_stack bs_root]. apply (st_object evs st root [] [] [] None); [exact H|constructor].
  - destruct st as [|[es key q|l] st]; try discriminate Ha. inversion H; subst. rewrite <- app_assoc. cbn [app].
    eapply stands_attach; [eassumption| |exact Ha]. econstructor; eassumption.
  - injection Ha as <-. cbn [bs_stack bs_root]. apply (st_array evs st root n [] []); [exact H|constructor].
  - destruct st as [|[es key q|l] st]; try discriminate Ha. inversion H; subst. rewrite <- app_assoc. cbn [app].
    eapply stands_attach; [eassumption| |exact Ha]. econstructor; eassumption.
  - destruct st as [|[es key q|l] st]; try discriminate Ha. injection Ha as <-. cbn [bs_stack bs_root]. inversion H; subst. rewrite <- app_assoc. cbn [app].
    apply st_object; [assumption|]. econstructor; eassumption.
  - eapply stands_attach; [exact H|constructor|exact Ha].
Qed.
Lemma apply_stands evs s : apply_events (BState [] None) evs = Ok s <-> stands evs (bs_stack s) (bs_root s).
Proof.
  split.
  - revert s. induction evs as [|e evs IH] using rev_ind; intros s H.
    + injection H as <-. apply (st_outside [] []). constructor.
    + rewrite apply_events_app in H. destruct (apply_events (BState [] None) evs) as [[st root]|] eqn:E; [|discriminate H]. cbn [bind apply_events] in H.
      specialize (IH _ eq_refl). cbn [bs_stack bs_root] in IH. destruct (apply_event (BState st root) e) as [s'|] eqn:E'; [|discriminate H]. injection H as <-.
      eapply stands_step; eauto.
  - intros H. apply stands_apply in H. rewrite H. now destruct s.
Qed.
Lemma within_stands evs ps : within tight evs ps <-> exists st root, stands evs st root /\ ps = map place_of st.
Proof.
  split.
  - induction 1 as [evs l H|pre ps n evs l H (st & root & IH & ->) Hl|pre ps evs es q key H (st & root & IH & ->) Hm].
    + exists [], (last (map Some l) None). split; [now constructor|reflexivity].
    + exists (BArr l :: st), root. split; [now constructor|reflexivity].
    + exists (BObj es key q :: st), root. split; [now constructor|reflexivity].
  - intros (st & root & H & ->). induction H as [evs l H|pre st root n evs l H IH Hl|pre st root evs es q key H IH Hm]; cbn [map place_of]; econstructor; eauto.
Qed.
Lemma refused st root e x : apply_event (BState st root) e = Err x <-> cannot_build (map place_of st) e x.
Proof.
  split.
  - destruct e as [| |n| |k w|p]; cbn [apply_event bs_stack bs_root]; try discriminate.
    + destruct st as [|[es key q|l] st]; cbn [map place_of]; try (intros E; injection E as <-; constructor).
      destruct st as [|[es2 [k2|] q2|l2] st]; cbn [attach]; try discriminate. intros E; injection E as <-. constructor.
    + destruct st as [|[es key q|l] st]; cbn [map place_of]; try (intros E; injection E as <-; constructor).
      destruct st as [|[es2 [k2|] q2|l2] st]; cbn [attach]; try discriminate. intros E; injection E as <-. constructor.
    + destruct st as [|[es key q|l] st]; cbn [map place_of]; try discriminate; intros E; injection E as <-; constructor.
    + destruct st as [|[es [key|] q|l] st]; cbn [map place_of attach]; try discriminate. intros E; injection E as <-. constructor.
  - intros H. destruct st as [|[es [k|] q|l] [|[es2 [k2|] q2|l2] st]]; cbn [map place_of keyed_by] in H; inversion H; subst; reflexivity.
Qed.

(** * The writer *)
Definition jplace (c : jctx) : place := match c with CObj _ keyed => InObject keyed | CArr _ => InArray end.
Notation loose := True.
Section Writer.
Variable st : num_style.
Variable indent : nat.
Fixpoint srun (evs : list event) (stack : list jctx) (depth : nat) : result (list str * list jctx * nat) :=
  match evs with
  | [] => Ok ([], stack, depth)
  | e :: r =>
      let? (out, stack, depth) := stream_event st indent e stack depth in
      let? (rest, stack, depth) := srun r stack depth in
      Ok (out ++ rest, stack, depth)
  end.
Lemma loop_srun evs : forall stack depth,
  stream_loop st indent evs stack depth =
  (let? (out, stack, _) := srun evs stack depth in if is_empty stack then Ok out else Err (EJsonStream OEnd)).
Proof.
  induction evs as [|e evs IH]; intros stack depth; cbn [stream_loop srun bind]; [destruct (is_empty stack); reflexivity|].
  destruct (stream_event st indent e stack depth) as [[[out stack1] depth1]|]; cbn [bind]; [|reflexivity]. rewrite IH.
  destruct (srun evs stack1 depth1) as [[[rest stack2] depth2]|]; cbn [bind]; [|reflexivity]. destruct (is_empty stack2); reflexivity.
Qed.
Lemma srun_app a b : forall stack depth,
  srun (a ++ b) stack depth =
  (let? (out, stack, depth) := srun a stack depth in let? (rest, stack, depth) := srun b stack depth in Ok (out ++ rest, stack, depth)).
Proof.
  induction a as [|e a IH]; intros stack depth; cbn [app srun bind].
  - destruct (srun b stack depth) as [[[? ?] ?]|]; reflexivity.
  - destruct (stream_event st indent e stack depth) as [[[out stack1] depth1]|]; cbn [bind]; [|reflexivity]. rewrite IH.
    destruct (srun a stack1 depth1) as [[[rest stack2] depth2]|]; cbn [bind]; [|reflexivity].
    destruct (srun b stack2 depth2) as [[[rest' stack3] depth3]|]; cbn [bind]; [|reflexivity]. now rewrite app_assoc.
Qed.

(** Where one is after a value. *)
Definition after (ps : list place) : list place := match ps with InObject _ :: r => InObject false :: r | _ => ps end.
Definition may (n : node) (ps : list place) : Prop := is_container n \/ forall r, ps <> InObject false :: r.
Lemma srun_one e stack depth : srun [e] stack depth = stream_event st indent e stack depth.
Proof. cbn [srun]. destruct (stream_event st indent e stack depth) as [[[o s] d]|]; cbn [bind]; [now rewrite app_nil_r|reflexivity]. Qed.
Definition goes (evs : list event) (ps : list place) (stack : list jctx) (depth : nat) : Prop :=
  exists out stack', srun evs stack depth = Ok (out, stack', depth) /\ map jplace stack' = ps.
Lemma goes_then a b ps ps' stack depth : goes a ps stack depth -> (forall stack', map jplace stack' = ps -> goes b ps' stack' depth) -> goes (a ++ b) ps' stack depth.
Proof.
  intros (out & s1 & E & Hp) H. destruct (H s1 Hp) as (out2 & s2 & E2 & Hp2). exists (out ++ out2), s2. rewrite srun_app, E. cbn [bind]. rewrite E2. auto.
Qed.
Lemma close_after stack : map jplace (close_value stack) = after (map jplace stack).
Proof. destruct stack as [|[] stack]; reflexivity. Qed.
Lemma gives_goes :
  (forall evs n, gives loose evs n -> forall stack depth, may n (map jplace stack) -> goes evs (after (map jplace stack)) stack depth) /\
  (forall evs l, gives_items loose evs l -> forall stack depth ps, map jplace stack = InArray :: ps -> goes evs (InArray :: ps) stack depth) /\
  (forall evs es q k, gives_members loose evs es q k -> forall stack depth ps, map jplace stack = InObject false :: ps -> goes evs (InObject (keyed_by k) :: ps) stack depth).
Proof.
  apply gives_mutind.
  - intros p stack depth M. unfold goes. rewrite srun_one. cbn [stream_event]. destruct stack as [|[nc [|]|nc] stack]; try (eexists _, _; split; [reflexivity|reflexivity]).
    exfalso. destruct M as [[]|M]. apply (M (map jplace stack)). reflexivity.
  - intros n evs l _ IH stack depth _. specialize (IH (CArr false :: stack) (S depth) (map jplace stack) eq_refl).
    destruct IH as (out & s1 & E & Hp). unfold goes. cbn [srun stream_event bind]. rewrite srun_app, E. cbn [bind]. rewrite srun_one.
    destruct s1 as [|[?|?] s1]; try discriminate Hp. injection Hp as Hp. cbn [stream_event bind pred].
    eexists _, _. split; [reflexivity|]. rewrite close_after. now rewrite Hp.
  - intros evs es q k _ IH stack depth _. specialize (IH (CObj false false :: stack) (S depth) (map jplace stack) eq_refl).
    destruct IH as (out & s1 & E & Hp). unfold goes. cbn [srun stream_event bind]. rewrite srun_app, E. cbn [bind]. rewrite srun_one.
    destruct s1 as [|[?|?] s1]; try discriminate Hp. injection Hp as _ Hp. cbn [stream_event bind pred].
    eexists _, _. split; [reflexivity|]. rewrite close_after. now rewrite Hp.
  - intros stack depth ps Hp. exists [], stack. auto.
  - intros evs l e v _ IH _ IHe stack depth ps Hp. eapply goes_then; [exact (IH stack depth ps Hp)|]. intros s1 H1. specialize (IHe s1 depth). rewrite H1 in IHe. apply IHe. right. discriminate.
  - intros stack depth ps Hp. exists [], stack. auto.
  - intros evs es q key k w _ IH stack depth ps Hp. eapply goes_then; [exact (IH stack depth ps Hp)|]. intros s1 H1. unfold goes. rewrite srun_one.
    destruct s1 as [|[? ?|?] s1]; try discriminate H1. injection H1 as _ H1. cbn [stream_event]. eexists _, _. split; [reflexivity|]. cbn [map jplace keyed_by]. now rewrite H1.
  - intros evs es q k e v _ IH _ IHe stack depth ps Hp. eapply goes_then; [exact (IH stack depth ps Hp)|]. intros s1 H1. specialize (IHe s1 depth). rewrite H1 in IHe. apply IHe. right. discriminate.
  - intros evs es q e v _ Hc _ IH _ IHe stack depth ps Hp. eapply goes_then; [exact (IH stack depth ps Hp)|]. intros s1 H1. specialize (IHe s1 depth). rewrite H1 in IHe. apply IHe. now left.
Qed.
Lemma roots_goes evs l : gives_items loose evs l -> forall depth, goes evs [] [] depth.
Proof.
  induction 1 as [|evs l e v H IH He]; intros depth; [exists [], []; auto|]. eapply goes_then; [apply IH|]. intros s1 H1. destruct s1; [|discriminate H1].
  apply (proj1 gives_goes _ _ He [] depth). right. discriminate.
Qed.
Lemma within_goes evs ps : within loose evs ps -> exists out stack depth, srun evs [] 0 = Ok (out, stack, depth) /\ map jplace stack = ps.
Proof.
  induction 1 as [evs l H|pre ps n evs l H (out & stack & depth & IH & Hp) Hl|pre ps evs es q key H (out & stack & depth & IH & Hp) Hm].
  - destruct (roots_goes _ _ H 0) as (out & s & E & Hp). eauto 6.
  - rewrite srun_app, IH. cbn [bind srun stream_event].
    destruct (proj1 (proj2 gives_goes) _ _ Hl (CArr false :: stack) (S depth) ps) as (out2 & s2 & E2 & Hp2); [cbn [map jplace]; now rewrite Hp|]. rewrite E2. cbn [bind]. eauto 6.
  - rewrite srun_app, IH. cbn [bind srun stream_event].
    destruct (proj2 (proj2 gives_goes) _ _ _ _ Hm (CObj false false :: stack) (S depth) ps) as (out2 & s2 & E2 & Hp2); [cbn [map jplace]; now rewrite Hp|]. rewrite E2. cbn [bind]. eauto 6.
Qed.
Lemma within_value pre ps e v : within loose pre ps -> gives loose e v -> may v ps -> within loose (pre ++ e) (after ps).
Proof.
  intros H He M. inversion H as [evs l Hl|pre' ps' n evs l H' Hl|pre' ps' evs es q key H' Hm]; subst; cbn [after].
  - eapply wi_outside. econstructor; eauto.
  - rewrite <- app_assoc. cbn [app]. eapply wi_array; [exact H'|]. econstructor; eauto.
  - rewrite <- app_assoc. cbn [app]. destruct key as [k|].
    + eapply (wi_object _ pre' ps' _ _ _ None); [exact H'|]. eapply gm_value; eauto.
    + eapply (wi_object _ pre' ps' _ _ _ None); [exact H'|]. destruct M as [M|M]; [eapply gm_lost; eauto|]. exfalso. now apply (M ps').
Qed.
Lemma within_step evs stack depth e out stack' depth' : within loose evs (map jplace stack) -> stream_event st indent e stack depth = Ok (out, stack', depth') ->
  within loose (evs ++ [e]) (map jplace stack').
Proof.
  intros H E. destruct e as [| |n| |k w|p]; cbn [stream_event] in E.
  - injection E as <- <- <-. cbn [map jplace]. eapply (wi_object _ evs _ [] _ _ None); [exact H|constructor].
  - destruct stack as [|[nc ev|nc] stack]; try discriminate E. injection E as <- <- <-. cbn [map jplace] in H. inversion H; subst. rewrite <- app_assoc. cbn [app]. rewrite close_after.
    eapply within_value; [eassumption|econstructor; eassumption|now left].
  - injection E as <- <- <-. cbn [map jplace]. eapply (wi_array _ evs _ _ []); [exact H|constructor].
  - destruct stack as [|[nc ev|nc] stack]; try discriminate E. injection E as <- <- <-. cbn [map jplace] in H. inversion H; subst. rewrite <- app_assoc. cbn [app]. rewrite close_after.
    eapply within_value; [eassumption|econstructor; eassumption|now left].
  - destruct stack as [|[nc ev|nc] stack]; try discriminate E. injection E as <- <- <-. cbn [map jplace] in *. inversion H; subst. rewrite <- app_assoc. cbn [app].
    eapply (wi_object _ _ _ _ _ _ (Some k)); [eassumption|]. econstructor; eassumption.
  - assert (M : may (NPrim p) (map jplace stack) -> map jplace stack' = after (map jplace stack) -> within loose (evs ++ [EvPrim p]) (map jplace stack')).
    { intros M ->. eapply within_value; [exact H|constructor|exact M]. }
    destruct stack as [|[nc [|]|nc] stack]; try discriminate E; injection E as <- <- <-; apply M; try reflexivity; right; discriminate.
Qed.
Lemma goes_within evs : forall out stack depth, srun evs [] 0 = Ok (out, stack, depth) -> within loose evs (map jplace stack).
Proof.
  induction evs as [|e evs IH] using rev_ind; intros out stack depth H.
  - injection H as <- <- <-. eapply wi_outside. constructor.
  - rewrite srun_app in H. destruct (srun evs [] 0) as [[[o1 s1] d1]|] eqn:E; [|discriminate H]. cbn [bind] in H. rewrite srun_one in H.
    destruct (stream_event st indent e s1 d1) as [[[o2 s2] d2]|] eqn:E2; [|discriminate H]. cbn [bind] in H. injection H as <- <- <-.
    eapply within_step; [|exact E2]. eapply IH. reflexivity.
Qed.
Lemma cannot_write_spec stack depth e x : stream_event st indent e stack depth = Err x <-> exists o, x = EJsonStream o /\ cannot_write (map jplace stack) e o.
Proof.
  split.
  - destruct e as [| |n| |k w|p]; cbn [stream_event]; try discriminate; destruct stack as [|[nc [|]|nc] stack]; cbn [map jplace]; try discriminate;
      intros E; injection E as <-; eexists; (split; [reflexivity|constructor]).
  - intros (o & -> & H). destruct stack as [|[nc [|]|nc] stack]; cbn [map jplace] in H; inversion H; subst; reflexivity.
Qed.
Lemma srun_err evs x : srun evs [] 0 = Err x <-> exists pre e post ps o, evs = pre ++ e :: post /\ within loose pre ps /\ cannot_write ps e o /\ x = EJsonStream o.
Proof.
  split.
  - induction evs as [|e evs IH] using rev_ind; intros H; [discriminate H|]. rewrite srun_app in H.
    destruct (srun evs [] 0) as [[[o1 s1] d1]|y] eqn:E; cbn [bind] in H.
    + rewrite srun_one in H. destruct (stream_event st indent e s1 d1) as [[[o2 s2] d2]|y] eqn:E2; cbn [bind] in H; [discriminate H|]. injection H as ->.
      apply cannot_write_spec in E2 as (o & -> & Hw). exists evs, e, [], (map jplace s1), o. split; [reflexivity|]. split; [eapply goes_within; eassumption|auto].
    + injection H as ->. destruct (IH eq_refl) as (pre & e' & post & ps & o & -> & H). exists pre, e', (post ++ [e]), ps, o. rewrite <- app_assoc. auto.
  - intros (pre & e & post & ps & o & -> & Hw & Hc & ->). destruct (within_goes _ _ Hw) as (out & stack & depth & E & <-). rewrite srun_app, E. cbn [bind srun].
    assert (E2 : stream_event st indent e stack depth = Err (EJsonStream o)) by (apply cannot_write_spec; eauto). now rewrite E2.
Qed.
End Writer.

(** What is accepted tightly is accepted loosely. *)
Lemma tight_loose :
  (forall evs n, gives tight evs n -> gives loose evs n) /\
  (forall evs l, gives_items tight evs l -> gives_items loose evs l) /\
  (forall evs es q k, gives_members tight evs es q k -> gives_members loose evs es q k).
Proof. apply gives_mutind; intros; try contradiction; econstructor; eassumption. Qed.
