(** Proofs about the command line arguments. *)
From Coq Require Import Permutation.
From Verif Require Import Chars Floats Json Lex Spec Shared EncPrim Folding Parser Serde Utf8 Cli ArgsParse SpecArgs NumProof PrimProof ParseProof PropsCli.

Local Open Scope nat_scope.

(** ** Names *)
Definition conv (s : setting) : arg_id * str :=
  match s with
  | Input p => (IInput, p)
  | Flag n => (match by_name long_names n with Some id => id | None => IHelp end, lit "true")
  | Value n v => (match by_name long_names n with Some id => id | None => IHelp end, v)
  end.
Definition well_named (s : setting) : Prop :=
  match s with Input _ => True | Flag n => In n flag_names | Value n _ => In n option_names end.
Lemma letters_named l s : letters l s -> Forall well_named s.
Proof. induction 1; constructor; auto; cbn; auto. Qed.
Lemma spells_named argv ss : spells argv ss -> Forall well_named ss.
Proof.
  induction 1; try (constructor; auto; cbn; auto; fail); auto.
  - apply Forall_app. eauto using letters_named.
  - apply Forall_app. split; [eauto using letters_named|]. constructor; [cbn; auto|auto].
  - apply Forall_app. split; [eauto using letters_named|]. constructor; [cbn; auto|auto].
  - apply Forall_app. split; [eauto using letters_named|]. constructor; [cbn; auto|auto].
Qed.
Lemma says_named argv ss : says argv ss -> Forall well_named ss.
Proof.
  intros [? ? H|? ? r H]; [now apply spells_named in H|]. apply Forall_app. split; [now apply spells_named in H|].
  induction r; constructor; cbn; auto.
Qed.
Lemma arg_id_eqb_eq x y : arg_id_eqb x y = true <-> x = y.
Proof. destruct x, y; cbn; split; congruence. Qed.
Lemma conv_called s t : well_named s -> well_named t -> arg_id_eqb (fst (conv s)) (fst (conv t)) = true <-> called s = called t.
Proof.
  destruct s as [p|n|n v], t as [q|m|m u]; cbn [well_named conv fst called flag_names option_names In]; intros Hs Ht;
    repeat (destruct Hs as [<-|Hs]); try contradiction Hs; repeat (destruct Ht as [<-|Ht]); try contradiction Ht; vm_compute; split; congruence.
Qed.
Lemma present_called s ss : well_named s -> Forall well_named ss -> present (fst (conv s)) (map conv ss) = true <-> In (called s) (map called ss).
Proof.
  intros Hs H. unfold present. induction H as [|t ss Ht _ IH]; cbn [map existsb In].
  - split; [discriminate|intros []].
  - rewrite Bool.orb_true_iff, IH. rewrite (conv_called t s) by auto. tauto.
Qed.

(** ** Values *)
Lemma delimiter_accepted v : is_some (parse_delimiter v) = true <-> exists d, delimiter_named v d.
Proof.
  split.
  - destruct (parse_delimiter v) as [d|] eqn:E; [|discriminate]. intros _. exists d. now apply (proj1 (C37_delimiter v d)).
  - intros [d H]. apply (proj2 (C37_delimiter v d)) in H. now rewrite H.
Qed.
Lemma delimiter_chosen v d : parse_delimiter v = Some d <-> delimiter_named v d.
Proof. apply C37_delimiter. Qed.
Lemma folding_chosen v k : parse_folding v = Some k <-> folding_named v k.
Proof.
  unfold parse_folding, folding_named. cbn [In]. split.
  - destruct (str_eqb v (lit "off")) eqn:E1; [apply str_eqb_eq in E1 as ->; intros H; injection H as <-; auto|].
    destruct (str_eqb v (lit "safe")) eqn:E2; [apply str_eqb_eq in E2 as ->; intros H; injection H as <-; auto|discriminate].
  - intros [E|[E|[]]]; injection E as <- <-; reflexivity.
Qed.
Lemma expand_chosen v k : parse_expand v = Some k <-> expand_named v k.
Proof.
  unfold parse_expand, expand_named. cbn [In]. split.
  - destruct (str_eqb v (lit "off")) eqn:E1; [apply str_eqb_eq in E1 as ->; intros H; injection H as <-; auto|].
    destruct (str_eqb v (lit "safe")) eqn:E2; [apply str_eqb_eq in E2 as ->; intros H; injection H as <-; auto|discriminate].
  - intros [E|[E|[]]]; injection E as <- <-; reflexivity.
Qed.
Lemma digits_forall ds : forallb is_digit ds = true <-> Forall (fun c => (48 <= c /\ c <= 57)%N) ds.
Proof.
  rewrite forallb_forall, Forall_forall. unfold is_digit. split; intros H c Hc; specialize (H c Hc).
  - apply andb_true_iff in H as [A B]. apply N.leb_le in A, B. auto.
  - apply andb_true_iff. destruct H. split; now apply N.leb_le.
Qed.
Lemma dec_val_digits ds : dec_val ds = digits_value ds.
Proof. reflexivity. Qed.
Lemma digit_head c r : Forall (fun c => (48 <= c /\ c <= 57)%N) (c :: r) -> (c =? cMINUS)%N = false /\ (c =? cPLUS)%N = false.
Proof.
  intros H. inversion H as [|? ? [A B] _]; subst. unfold N.le in *. split; apply N.eqb_neq; intros ->; cbn in *; congruence.
Qed.
Lemma depth_chosen v n : parse_usize v = Some n <-> depth_named v n.
Proof.
  unfold parse_usize, depth_named, numeral. split.
  - set (ds := match v with [] => [] | c :: r => if (c =? cPLUS)%N then r else v end).
    destruct (is_empty ds) eqn:E1; [discriminate|]. destruct (forallb is_digit ds) eqn:E2; [|discriminate].
    destruct (dec_val ds <=? USIZE_MAX)%N eqn:E3; [|discriminate]. intros H. injection H as <-. apply N.leb_le in E3. split.
    + assert (X : exists sign, v = sign ++ ds /\ (sign = [] \/ sign = lit "+")).
      { subst ds. destruct v as [|c r]; [discriminate|]. destruct (c =? cPLUS)%N eqn:Ec; [|exists []; auto].
        apply N.eqb_eq in Ec as ->. exists (lit "+"). auto. }
      destruct X as (sign & X1 & X2). exists sign, ds. split; auto. split; [cbn; destruct X2 as [->| ->]; auto|].
      split; [now destruct ds|]. split; [now apply digits_forall|reflexivity].
    + change (2 ^ 64)%N with (N.succ USIZE_MAX). apply N.lt_succ_r. exact E3.
  - intros ((sign & ds & -> & Hs & Hd & Hf & ->) & Hn).
    assert (X : match sign ++ ds with [] => [] | c :: r => if (c =? cPLUS)%N then r else sign ++ ds end = ds).
    { cbn [In] in Hs. destruct Hs as [<-|[<-|[]]]; cbn [app].
      - destruct ds as [|c r]; [reflexivity|]. now destruct (digit_head c r Hf) as [_ ->].
      - reflexivity. }
    rewrite X. destruct ds as [|c r]; [congruence|]. cbn [is_empty]. rewrite (proj2 (digits_forall _) Hf).
    change (2 ^ 64)%N with (N.succ USIZE_MAX) in Hn. apply N.lt_succ_r in Hn. apply N.leb_le in Hn. rewrite dec_val_digits, Hn. reflexivity.
Qed.
Lemma indent_chosen v n : parse_indent v = Some n <-> indent_named v n.
Proof.
  unfold parse_indent, indent_named, numeral. split.
  - assert (X : exists sign, v = sign ++ snd (split_sign v) /\ (if fst (split_sign v) then sign = lit "-" else sign = [] \/ sign = lit "+")).
    { unfold split_sign. destruct v as [|c r]; [exists []; cbn; auto|]. destruct (c =? cMINUS)%N eqn:E; [apply N.eqb_eq in E as ->; exists (lit "-"); cbn; auto|].
      destruct (c =? cPLUS)%N eqn:E'; [apply N.eqb_eq in E' as ->; exists (lit "+"); cbn; auto|]. exists []. cbn; auto. }
    destruct (split_sign v) as [neg ds]. cbn [fst snd] in X. destruct X as (sign & -> & Hs).
    destruct (is_empty ds) eqn:E1; [discriminate|]. destruct (forallb is_digit ds) eqn:E2; [|discriminate]. cbn [orb negb].
    assert (ds <> []) by (now destruct ds). apply digits_forall in E2. rewrite dec_val_digits. destruct neg.
    + destruct (digits_value ds =? 0)%N eqn:E3; [|discriminate]. intros H'. injection H' as <-. apply N.eqb_eq in E3. right. split; [|reflexivity].
      exists sign, ds. cbn [In]. subst sign. auto 10.
    + destruct (digits_value ds <=? 16)%N eqn:E3; [|discriminate]. intros H'. injection H' as <-. apply N.leb_le in E3. left. exists (digits_value ds).
      split; [|auto]. exists sign, ds. cbn [In]. destruct Hs as [->| ->]; auto 10.
  - intros [(m & (sign & ds & -> & Hs & Hd & Hf & ->) & Hm & ->)|((sign & ds & -> & Hs & Hd & Hf & Hz) & ->)]; cbn [In] in Hs.
    + assert (X : split_sign (sign ++ ds) = (false, ds)).
      { destruct Hs as [<-|[<-|[]]]; cbn [app]; [|reflexivity]. destruct ds as [|c r]; [reflexivity|]. unfold split_sign. now destruct (digit_head c r Hf) as [-> ->]. }
      rewrite X. destruct ds as [|c r]; [congruence|]. cbn [is_empty orb]. rewrite (proj2 (digits_forall _) Hf). cbn [negb].
      apply N.leb_le in Hm. now rewrite dec_val_digits, Hm.
    + destruct Hs as [<-|[]]. change (split_sign (lit "-" ++ ds)) with (true, ds).
      destruct ds as [|c r]; [congruence|]. cbn [is_empty orb]. rewrite (proj2 (digits_forall _) Hf). cbn [negb].
      rewrite dec_val_digits, <- Hz. reflexivity.
Qed.
Lemma some_iff {A B} (o : option A) (P : A -> Prop) (_ : B) : (forall x, o = Some x <-> P x) -> is_some o = true <-> exists x, P x.
Proof. intros H. destruct o as [x|]; cbn; split; [intros _; exists x; now apply H|reflexivity|discriminate|intros [x Hx]; apply H in Hx; discriminate]. Qed.
Lemma good_acceptable s : well_named s -> acceptable (fst (conv s)) (snd (conv s)) = true <-> good s.
Proof.
  destruct s as [p|n|n v]; cbn [well_named].
  - intros _. cbn. destruct p; cbn; split; try discriminate; auto; [intros H; inversion H; congruence|constructor; discriminate].
  - intros H. split; [constructor|intros _]. cbn [flag_names In] in H. repeat (destruct H as [<-|H]); try contradiction H; reflexivity.
  - cbn [option_names In]. intros H.
    assert (D : forall (a b : str), a <> b -> forall P : Prop, a = b -> P) by congruence.
    destruct H as [<-|[<-|[<-|[<-|[<-|[<-|[]]]]]]].
    + change (negb (is_empty v) = true <-> good (Value (lit "output") v)). split.
      * intros H. apply gd_output. now destruct v.
      * intros H. inversion H; subst. now destruct v.
    + change (is_some (parse_delimiter v) = true <-> good (Value (lit "delimiter") v)). rewrite (some_iff _ _ tt (delimiter_chosen v)).
      split; [intros [x H]; eapply gd_delimiter; eauto|intros H; inversion H; subst; eauto].
    + change (is_some (parse_indent v) = true <-> good (Value (lit "indent") v)). rewrite (some_iff _ _ tt (indent_chosen v)).
      split; [intros [x H]; eapply gd_indent; eauto|intros H; inversion H; subst; eauto].
    + change (is_some (parse_folding v) = true <-> good (Value (lit "key-folding") v)). rewrite (some_iff _ _ tt (folding_chosen v)).
      split; [intros [x H]; eapply gd_folding; eauto|intros H; inversion H; subst; eauto].
    + change (is_some (parse_usize v) = true <-> good (Value (lit "flatten-depth") v)). rewrite (some_iff _ _ tt (depth_chosen v)).
      split; [intros [x H]; eapply gd_depth; eauto|intros H; inversion H; subst; eauto].
    + change (is_some (parse_expand v) = true <-> good (Value (lit "expand-paths") v)). rewrite (some_iff _ _ tt (expand_chosen v)).
      split; [intros [x H]; eapply gd_expand; eauto|intros H; inversion H; subst; eauto].
Qed.

(** ** Storing settings *)
Fixpoint store_all (ss : list setting) (f : found) : parsed found :=
  match ss with
  | [] => Go f
  | s :: r => pbind (settle (fst (conv s)) (Some (snd (conv s))) f) (store_all r)
  end.
Lemma settle_named s f : well_named s -> settle (fst (conv s)) (Some (snd (conv s))) f =
  if present (fst (conv s)) f then Stop WrongUsage else if acceptable (fst (conv s)) (snd (conv s)) then Go (f ++ [conv s]) else Stop WrongUsage.
Proof.
  destruct s as [p|n|n v]; cbn [well_named flag_names option_names In]; intros H; [reflexivity|..];
    repeat (destruct H as [<-|H]); try contradiction H; reflexivity.
Qed.
Lemma store_all_app a : forall b f, store_all (a ++ b) f = pbind (store_all a f) (store_all b).
Proof. induction a as [|s a IH]; intros b f; [reflexivity|]. cbn [app store_all]. destruct (settle _ _ _); cbn; auto. Qed.
Lemma store_all_spec ss : forall ss0, Forall well_named (ss0 ++ ss) -> proper ss0 ->
  (proper (ss0 ++ ss) /\ store_all ss (map conv ss0) = Go (map conv (ss0 ++ ss))) \/
  (~ proper (ss0 ++ ss) /\ store_all ss (map conv ss0) = Stop WrongUsage).
Proof.
  induction ss as [|s ss IH]; intros ss0 Hn Hp.
  - rewrite app_nil_r. left. auto.
  - assert (Hs : well_named s /\ Forall well_named ss0).
    { apply Forall_app in Hn as [A B]. inversion B; auto. }
    cbn [store_all]. rewrite settle_named by tauto. destruct Hs as [Hs H0].
    destruct (present (fst (conv s)) (map conv ss0)) eqn:E1.
    + right. split; [|reflexivity]. intros [N _]. apply (present_called s ss0 Hs H0) in E1.
      rewrite map_app in N. apply NoDup_remove_2 in N. apply N, in_or_app. now left.
    + destruct (acceptable (fst (conv s)) (snd (conv s))) eqn:E2.
      * cbn [pbind]. assert (Hp' : proper (ss0 ++ [s])).
        { destruct Hp as [N G]. split.
          - rewrite map_app. cbn [map]. apply NoDup_rev in N. rewrite <- (rev_involutive (_ ++ _)). apply NoDup_rev.
            rewrite rev_app_distr. cbn [rev app]. constructor; [|exact N]. rewrite <- in_rev. intros Hi. apply (present_called s ss0 Hs H0) in Hi. congruence.
          - apply Forall_app. split; auto. constructor; [|constructor]. now apply good_acceptable. }
        specialize (IH (ss0 ++ [s])). rewrite <- app_assoc in IH. cbn [app] in IH.
        replace (map conv ss0 ++ [conv s]) with (map conv (ss0 ++ [s])) by (rewrite map_app; reflexivity).
        exact (IH Hn Hp').
      * right. split; [|reflexivity]. intros [_ G]. apply Forall_app in G as [_ G]. inversion G as [|? ? G1 _]; subst.
        apply good_acceptable in G1; [congruence|auto].
Qed.
Lemma proper_nil : proper [].
Proof. split; constructor. Qed.
Lemma store_all_start ss : Forall well_named ss ->
  (proper ss /\ store_all ss [] = Go (map conv ss)) \/ (~ proper ss /\ store_all ss [] = Stop WrongUsage).
Proof. intros H. exact (store_all_spec ss [] H proper_nil). Qed.
Lemma store_all_stop ss : Forall well_named ss -> forall f x, store_all ss f = Stop x -> x = WrongUsage.
Proof.
  induction 1 as [|s ss Hs _ IH]; intros f x; [discriminate|]. cbn [store_all]. rewrite settle_named by auto.
  destruct (present _ _); [intros E; now injection E|]. destruct (acceptable _ _); [apply IH|intros E; now injection E].
Qed.

(** ** Pending values *)
Lemma pbind_assoc {A B C} (x : parsed A) (f : A -> parsed B) (g : B -> parsed C) : pbind (pbind x f) g = pbind x (fun a => pbind (f a) g).
Proof. now destruct x. Qed.
Lemma pbind_ext {A B} (x : parsed A) (f g : A -> parsed B) : (forall a, f a = g a) -> pbind x f = pbind x g.
Proof. intros H. destruct x; cbn; auto. Qed.
Definition unstored (f : found) (p : arg_id * option str) : Prop := forall x, settle (fst p) (snd p) f = Stop x -> x = WrongUsage.

Lemma react_eager id raw f p : react id raw (Matcher f (Some p)) = pbind (settle (fst p) (snd p) f) (fun f' => react id raw (Matcher f' None)).
Proof. destruct p. reflexivity. Qed.
Lemma short_eager cs f p : cs <> [] -> unstored f p ->
  parse_short cs (Matcher f (Some p)) = pbind (settle (fst p) (snd p) f) (fun f' => parse_short cs (Matcher f' None)).
Proof.
  intros Hc Hu. destruct cs as [|c r]; [congruence|]. cbn [parse_short]. destruct (by_name short_names [c]) as [id|].
  - destruct (takes_value id).
    + match goal with |- context [parse_opt_value id ?x] => generalize x end. intros [v|]; unfold parse_opt_value.
      * rewrite react_eager. now rewrite pbind_assoc.
      * destruct p. reflexivity.
    + rewrite react_eager, pbind_assoc. reflexivity.
  - destruct (settle _ _ _) eqn:E; [reflexivity|]. cbn. now rewrite (Hu _ E).
Qed.
Lemma long_eager name v f p : unstored f p ->
  parse_long name v (Matcher f (Some p)) = pbind (settle (fst p) (snd p) f) (fun f' => parse_long name v (Matcher f' None)).
Proof.
  intros Hu. unfold parse_long.
  assert (S1 : forall T, (Stop WrongUsage : parsed T) = pbind (settle (fst p) (snd p) f) (fun _ => Stop WrongUsage)).
  { intros T. destruct (settle _ _ _) eqn:E; [reflexivity|]. cbn. now rewrite (Hu _ E). }
  destruct (by_name long_names name) as [id|]; [|apply S1].
  destruct (takes_value id).
  - unfold parse_opt_value. destruct v; [now rewrite react_eager, pbind_assoc|]. destruct p. reflexivity.
  - destruct v; [apply S1|]. now rewrite react_eager, pbind_assoc.
Qed.
(** A value that waits to be stored can as well be stored at once. *)
Lemma eager argv : forall tr taken f p, unstored f p ->
  get_matches tr None taken (Matcher f (Some p)) argv = pbind (settle (fst p) (snd p) f) (fun f' => get_matches tr None taken (Matcher f' None) argv).
Proof.
  induction argv as [|a r IH]; intros tr taken f p Hu.
  - destruct p. cbn. now destruct (settle _ _ _).
  - assert (S1 : forall T, (Stop WrongUsage : parsed T) = pbind (settle (fst p) (snd p) f) (fun _ => Stop WrongUsage)).
    { intros T. destruct (settle _ _ _) eqn:E; [reflexivity|]. cbn. now rewrite (Hu _ E). }
    assert (P : forall tr, (if taken then Stop WrongUsage else pbind (resolve_pending (Matcher f (Some p))) (fun f => get_matches tr None true (Matcher f (Some (IInput, Some a))) r))
       = pbind (settle (fst p) (snd p) f) (fun f' => if taken then Stop WrongUsage else pbind (resolve_pending (Matcher f' None)) (fun f => get_matches tr None true (Matcher f (Some (IInput, Some a))) r))).
    { intros tr'. destruct taken; [apply S1|]. destruct p. reflexivity. }
    cbn [get_matches]. destruct tr; [apply P|]. destruct (str_eqb a (lit "--")); [apply IH, Hu|].
    destruct (to_long a) as [[name v]|]; [now rewrite long_eager, pbind_assoc by auto|].
    destruct (to_short a) as [cs|] eqn:Es; [|apply P].
    rewrite short_eager, pbind_assoc; auto. unfold to_short in Es. destruct a as [|c [|d a]]; try discriminate. destruct (_ && _)%bool; [|discriminate].
    injection Es as <-. discriminate.
Qed.
Lemma unstored_input f a : unstored f (IInput, Some a).
Proof. intros x. cbn. destruct (present _ _); [congruence|]. destruct (negb _); congruence. Qed.
Lemma unstored_named f n v : In n option_names -> unstored f (fst (conv (Value n v)), Some v).
Proof.
  intros H x. change (settle (fst (conv (Value n v))) (Some (snd (conv (Value n v)))) f = Stop x -> x = WrongUsage).
  rewrite settle_named by exact H. destruct (present _ _); [congruence|]. destruct (acceptable _ _); congruence.
Qed.
Lemma present_app id f s : present id (f ++ [conv s]) = (present id f || arg_id_eqb (fst (conv s)) id)%bool.
Proof. unfold present. rewrite existsb_app. cbn. now rewrite Bool.orb_false_r. Qed.

(** ** Reading spellings *)
Definition go (f : found) (argv : list str) : parsed found := get_matches false None (present IInput f) (Matcher f None) argv.
Lemma settle_taken s f (g : bool -> found -> parsed found) taken : well_named s ->
  (match s with Input _ => taken = true | _ => taken = present IInput f end) ->
  pbind (settle (fst (conv s)) (Some (snd (conv s))) f) (g taken) = pbind (settle (fst (conv s)) (Some (snd (conv s))) f) (fun f' => g (present IInput f') f').
Proof.
  intros Hs Ht. rewrite settle_named by auto. destruct (present (fst (conv s)) f); [reflexivity|]. destruct (acceptable _ _); [|reflexivity].
  cbn [pbind]. rewrite present_app. f_equal. destruct s as [p|n|n v].
  - rewrite Ht. cbn. now rewrite Bool.orb_true_r.
  - rewrite Ht. cbn [well_named flag_names In] in Hs. repeat (destruct Hs as [<-|Hs]); try contradiction Hs; cbn; now rewrite Bool.orb_false_r.
  - rewrite Ht. cbn [well_named option_names In] in Hs. repeat (destruct Hs as [<-|Hs]); try contradiction Hs; cbn; now rewrite Bool.orb_false_r.
Qed.
Lemma plain_not_option a : ~ hyphened a -> str_eqb a (lit "--") = false /\ to_long a = None /\ to_short a = None.
Proof.
  intros H. destruct a as [|c [|d r]]; [auto| |].
  - split; [|auto]. destruct (str_eqb _ _) eqn:E; [|reflexivity]. apply str_eqb_eq in E. discriminate E.
  - assert (c <> cMINUS) by (intros ->; apply H; exists d, r; reflexivity). apply N.eqb_neq in H0. split; [|split].
    + destruct (str_eqb _ _) eqn:E; [|reflexivity]. apply str_eqb_eq in E. injection E as -> _ _. discriminate H0.
    + unfold to_long. destruct r; [reflexivity|]. now rewrite H0.
    + unfold to_short. now rewrite H0.
Qed.
Lemma step_input f a rest : ~ hyphened a -> go f (a :: rest) = pbind (settle IInput (Some a) f) (fun f' => go f' rest).
Proof.
  intros H. destruct (plain_not_option a H) as (E1 & E2 & E3). unfold go. cbn [get_matches]. rewrite E1, E2, E3.
  destruct (present IInput f) eqn:Ep.
  - cbn. now rewrite Ep.
  - cbn [resolve_pending m_pending m_found pbind]. rewrite eager by apply unstored_input. cbn [fst snd].
    apply (settle_taken (Input a) f (fun t f' => get_matches false None t (Matcher f' None) rest) true I eq_refl).
Qed.
Lemma step_flag f n rest : In n flag_names ->
  go f ((lit "--" ++ n) :: rest) = pbind (settle (fst (conv (Flag n))) (Some (snd (conv (Flag n)))) f) (fun f' => go f' rest).
Proof.
  intros H. unfold go. rewrite <- (settle_taken (Flag n) f (fun t f' => get_matches false None t (Matcher f' None) rest) (present IInput f) H eq_refl).
  cbn [flag_names In] in H. repeat (destruct H as [<-|H]); try contradiction H;
    (etransitivity; [|apply (pbind_assoc _ (fun f' => Go (None, Matcher f' None)) (fun x => get_matches false (fst x) (present IInput f) (snd x) rest))]; reflexivity).
Qed.
Lemma step_equals f n v rest : In n option_names ->
  go f ((lit "--" ++ n ++ lit "=" ++ v) :: rest) = pbind (settle (fst (conv (Value n v))) (Some (snd (conv (Value n v)))) f) (fun f' => go f' rest).
Proof.
  intros H. unfold go. rewrite <- (settle_taken (Value n v) f (fun t f' => get_matches false None t (Matcher f' None) rest) (present IInput f) H eq_refl).
  cbn [option_names In] in H. repeat (destruct H as [<-|H]); try contradiction H;
    (etransitivity; [|apply (pbind_assoc _ (fun f' => Go (None, Matcher f' None)) (fun x => get_matches false (fst x) (present IInput f) (snd x) rest))]; reflexivity).
Qed.
(** An option that waits for its value. *)
Lemma wait_value f n v rest taken : In n option_names -> ~ hyphened v -> taken = present IInput f ->
  get_matches false (Some (fst (conv (Value n v)))) taken (Matcher f (Some (fst (conv (Value n v)), None))) (v :: rest)
  = pbind (settle (fst (conv (Value n v))) (Some (snd (conv (Value n v)))) f) (fun f' => go f' rest).
Proof.
  intros H Hv ->. unfold go. rewrite <- (settle_taken (Value n v) f (fun t f' => get_matches false None t (Matcher f' None) rest) (present IInput f) H eq_refl).
  destruct (plain_not_option v Hv) as (E1 & E2 & E3). cbn [get_matches]. rewrite E1, E2, E3. cbn [m_found].
  rewrite eager by (apply unstored_named; exact H). reflexivity.
Qed.
Lemma step_next f n v rest : In n option_names -> ~ hyphened v ->
  go f ((lit "--" ++ n) :: v :: rest) = pbind (settle (fst (conv (Value n v))) (Some (snd (conv (Value n v)))) f) (fun f' => go f' rest).
Proof.
  intros H Hv. rewrite <- (wait_value f n v rest (present IInput f) H Hv eq_refl).
  unfold go. cbn [option_names In] in H. repeat (destruct H as [<-|H]); try contradiction H; reflexivity.
Qed.
Lemma short_letters l s : letters l s -> forall f r,
  parse_short (l ++ r) (Matcher f None) = pbind (store_all s f) (fun f' => parse_short r (Matcher f' None)).
Proof.
  induction 1 as [|l s _ IH|l s _ IH]; intros f r; [reflexivity| |]; cbn [app store_all]; rewrite pbind_assoc;
    (etransitivity; [|apply pbind_ext; intros f'; apply IH]); reflexivity.
Qed.
Lemma letters_head l s c : letters (c :: l) s -> c = 101%N \/ c = 100%N.
Proof. intros H. inversion H; auto. Qed.
Lemma go_short f cs rest c r : cs = c :: r -> c <> cMINUS ->
  go f ((lit "-" ++ cs) :: rest) = pbind (parse_short cs (Matcher f None)) (fun x => get_matches false (fst x) (present IInput f) (snd x) rest).
Proof.
  intros -> Hc. unfold go. cbn [get_matches]. change (lit "-" ++ c :: r) with (cMINUS :: c :: r).
  assert (E : (c =? cMINUS)%N = false) by now apply N.eqb_neq.
  assert (E1 : str_eqb (cMINUS :: c :: r) (lit "--") = false) by (destruct (str_eqb _ _) eqn:E'; [|reflexivity]; apply str_eqb_eq in E'; injection E' as -> _; now elim Hc).
  assert (E2 : to_long (cMINUS :: c :: r) = None) by (unfold to_long; destruct r; [reflexivity|now rewrite E, Bool.andb_false_r]).
  assert (E3 : to_short (cMINUS :: c :: r) = Some (c :: r)) by (unfold to_short; now rewrite E).
  now rewrite E1, E2, E3.
Qed.
Lemma store_taken ss : Forall well_named ss -> Forall (fun s => match s with Input _ => False | _ => True end) ss ->
  forall f (g : bool -> found -> parsed found),
  pbind (store_all ss f) (g (present IInput f)) = pbind (store_all ss f) (fun f' => g (present IInput f') f').
Proof.
  induction 1 as [|s ss Hs _ IH]; intros Hi f g; [reflexivity|]. inversion Hi as [|? ? Hi1 Hi2]; subst.
  cbn [store_all]. rewrite !pbind_assoc.
  rewrite (settle_taken s f (fun t a => pbind (store_all ss a) (g t)) (present IInput f) Hs ltac:(destruct s; [contradiction Hi1|reflexivity..])).
  apply pbind_ext. intros f'. now apply IH.
Qed.
Lemma letters_no_input l s : letters l s -> Forall (fun s => match s with Input _ => False | _ => True end) s.
Proof. induction 1; constructor; auto. Qed.
Lemma step_letters f l s t rest : letters l s -> l ++ t <> [] -> (forall c r, t = c :: r -> c <> cMINUS) ->
  go f ((lit "-" ++ l ++ t) :: rest)
  = pbind (store_all s f) (fun f' => pbind (parse_short t (Matcher f' None)) (fun x => get_matches false (fst x) (present IInput f') (snd x) rest)).
Proof.
  intros Hl Hn Ht. destruct (l ++ t) as [|c r] eqn:E; [congruence|].
  rewrite (go_short f (c :: r) rest c r eq_refl).
  - rewrite <- E, (short_letters l s Hl), pbind_assoc.
    apply (store_taken s (letters_named _ _ Hl) (letters_no_input _ _ Hl) f (fun t' f' => pbind (parse_short t (Matcher f' None)) (fun x => get_matches false (fst x) t' (snd x) rest))).
  - destruct l as [|c' l]; cbn in E.
    + eapply Ht. exact E.
    + injection E as -> _. destruct (letters_head _ _ _ Hl) as [->| ->]; discriminate.
Qed.
Lemma output_value f v rest : pbind (pbind (settle IOutput (Some v) f) (fun f0 => Go (None, Matcher f0 None)))
    (fun x : pstate * matcher => get_matches false (fst x) (present IInput f) (snd x) rest) = pbind (settle IOutput (Some v) f) (fun f' => go f' rest).
Proof.
  rewrite pbind_assoc. exact (settle_taken (Value (lit "output") v) f (fun t f' => get_matches false None t (Matcher f' None) rest) (present IInput f) (or_introl eq_refl) eq_refl).
Qed.

Lemma go_spells pre ss : spells pre ss -> forall f rest, go f (pre ++ rest) = pbind (store_all ss f) (fun f' => go f' rest).
Proof.
  induction 1 as [|a r ss Ha _ IH|n r ss Hn _ IH|n v r ss Hn _ IH|n v r ss Hn Hv _ IH|l s r ss Hl Hs _ IH|l s v r ss Hs _ IH|l s c v r ss Hs Hc _ IH|l s v r ss Hs Hv _ IH];
    intros f rest; rewrite <- ?app_comm_cons.
  - reflexivity.
  - rewrite step_input by auto. cbn [store_all conv fst snd]. rewrite pbind_assoc. apply pbind_ext. intros f'. apply IH.
  - rewrite step_flag by auto. cbn [store_all]. rewrite pbind_assoc. apply pbind_ext. intros f'. apply IH.
  - rewrite step_equals by auto. cbn [store_all]. rewrite pbind_assoc. apply pbind_ext. intros f'. apply IH.
  - rewrite step_next by auto. cbn [store_all]. rewrite pbind_assoc. apply pbind_ext. intros f'. apply IH.
  - rewrite <- (app_nil_r l) at 1. rewrite (step_letters f l s []); [|auto|now rewrite app_nil_r|discriminate].
    rewrite store_all_app, pbind_assoc. apply pbind_ext. intros f'. apply IH.
  - rewrite (step_letters f l s (lit "o=" ++ v)); [|auto|now destruct l|intros ? ? E; injection E as <- _; discriminate].
    rewrite store_all_app, pbind_assoc. apply pbind_ext. intros f'. etransitivity; [apply output_value|].
    cbn [store_all]. rewrite pbind_assoc. apply pbind_ext. intros f2. apply IH.
  - rewrite (step_letters f l s (lit "o" ++ c :: v)); [|auto|now destruct l|intros ? ? E; injection E as <- _; discriminate].
    rewrite store_all_app, pbind_assoc. apply pbind_ext. intros f'. etransitivity; [|etransitivity; [apply output_value|]].
    + cbn. apply N.eqb_neq in Hc. now rewrite Hc.
    + cbn [store_all]. rewrite pbind_assoc. apply pbind_ext. intros f2. apply IH.
  - rewrite (step_letters f l s (lit "o")); [|auto|now destruct l|intros ? ? E; injection E as <- _; discriminate].
    rewrite store_all_app, pbind_assoc. apply pbind_ext. intros f'. etransitivity; [|etransitivity; [apply (wait_value f' (lit "output") v (r ++ rest) (present IInput f') (or_introl eq_refl) Hv eq_refl)|]].
    + reflexivity.
    + cbn [store_all]. rewrite pbind_assoc. apply pbind_ext. intros f2. apply IH.
Qed.
Lemma go_end f : go f [] = Go f.
Proof. reflexivity. Qed.
Lemma go_rest r : forall f, get_matches true None (present IInput f) (Matcher f None) r = store_all (map Input r) f.
Proof.
  induction r as [|a r IH]; intros f; [reflexivity|]. cbn [get_matches map store_all].
  destruct (present IInput f) eqn:Ep.
  - cbn. now rewrite Ep.
  - cbn [resolve_pending m_pending m_found pbind]. rewrite eager by apply unstored_input. cbn [fst snd].
    etransitivity; [apply (settle_taken (Input a) f (fun t f' => get_matches true None t (Matcher f' None) r) true I eq_refl)|].
    apply pbind_ext. exact IH.
Qed.
Lemma go_says argv ss f : says argv ss -> go f argv = store_all ss f.
Proof.
  intros [? ? H|? ? r H].
  - rewrite <- (app_nil_r argv0), (go_spells _ _ H). destruct (store_all ss0 f); reflexivity.
  - rewrite (go_spells _ _ H), store_all_app. apply pbind_ext. intros f'. apply go_rest.
Qed.

(** ** Every list of arguments *)
Definition stuck (rest : list str) : Prop := forall f, go f rest = Stop WrongUsage.
(** Help or version at this place, after the flags [l] in the same argument. *)
Definition shows_at (name : str) (letter : char) (a : str) (l : str) : Prop :=
  (a = lit "--" ++ name /\ l = []) \/ exists more, a = lit "-" ++ l ++ letter :: more.
Definition kinds : list (str * char * stop) := [(lit "help", 104%N, ShowHelp); (lit "version", 86%N, ShowVersion)].
Inductive sort_of (argv : list str) : Prop :=
| so_says ss : says argv ss -> sort_of argv
| so_shows pre ss a l s r name letter k : In (name, letter, k) kinds -> argv = pre ++ a :: r -> spells pre ss -> letters l s ->
    shows_at name letter a l -> sort_of argv
| so_stuck pre ss rest : argv = pre ++ rest -> spells pre ss -> stuck rest -> sort_of argv.

Lemma waiting_stuck n f taken b rest : In n option_names -> hyphened b ->
  get_matches false (Some (fst (conv (Value n [])))) taken (Matcher f (Some (fst (conv (Value n [])), None))) (b :: rest) = Stop WrongUsage.
Proof.
  intros Hn (c & r & ->).
  assert (R : resolve_pending (Matcher f (Some (fst (conv (Value n [])), None))) = Stop WrongUsage).
  { cbn [option_names In] in Hn. repeat (destruct Hn as [<-|Hn]); try contradiction Hn; reflexivity. }
  set (m := Matcher f (Some (fst (conv (Value n [])), None))) in *. cbn [get_matches].
  assert (RE : forall id raw, react id raw m = Stop WrongUsage) by (intros; unfold react; now rewrite R).
  destruct (str_eqb _ _) eqn:E1.
  - destruct rest as [|x rest]; cbn [get_matches]; rewrite R; [reflexivity|]. now destruct taken.
  - destruct (to_long _) as [[name v]|] eqn:El.
    + unfold parse_long. destruct (by_name _ _) as [id|]; [|reflexivity]. destruct (takes_value id).
      * unfold parse_opt_value. destruct v; [now rewrite RE|now rewrite R].
      * destruct v; [reflexivity|]. now rewrite RE.
    + assert (E2 : exists cs, to_short (cMINUS :: c :: r) = Some cs /\ cs <> []).
      { unfold to_short. destruct (c =? cMINUS)%N eqn:Ec; [|eexists; split; [reflexivity|discriminate]]. exfalso.
        apply N.eqb_eq in Ec as ->. destruct r as [|d r]; [discriminate E1|discriminate El]. }
      destruct E2 as (cs & -> & Hcs).
      destruct cs as [|c' cs]; [congruence|]. cbn [parse_short]. destruct (by_name _ _) as [id|]; [|reflexivity]. destruct (takes_value id).
      * match goal with |- context [parse_opt_value id ?x] => generalize x end. intros [v|]; unfold parse_opt_value; [now rewrite RE|now rewrite R].
      * now rewrite RE.
Qed.
Lemma sort_after a argv : (forall r ss, spells r ss -> exists ss', spells (a ++ r) ss') -> sort_of argv -> sort_of (a ++ argv).
Proof.
  intros Ha [ss H|pre ss w l s r name letter k Hk -> H Hl Hw|pre ss rest -> H Hs].
  - destruct H as [argv ss H|argv ss r H].
    + destruct (Ha _ _ H) as [ss' H']. eapply so_says, sy_plain, H'.
    + destruct (Ha _ _ H) as [ss' H']. rewrite app_assoc. eapply so_says, sy_rest, H'.
  - destruct (Ha _ _ H) as [ss' H']. rewrite app_assoc. eapply so_shows; eauto.
  - destruct (Ha _ _ H) as [ss' H']. rewrite app_assoc. eapply so_stuck; eauto.
Qed.
Lemma by_name_in names n id : by_name names n = Some id -> In (n, id) names.
Proof.
  induction names as [|[m i] names IH]; [discriminate|]. cbn. destruct (str_eqb n m) eqn:E; [|auto].
  intros H. injection H as ->. apply str_eqb_eq in E as ->. now left.
Qed.
Lemma by_name_long n id : In (n, id) long_names -> by_name long_names n = Some id.
Proof. cbn [long_names In]. intros H. repeat (destruct H as [H|H]; [injection H as <- <-; reflexivity|]). contradiction H. Qed.
Lemma split_equals_spec s : let '(n, v) := split_equals s in s = n ++ match v with Some v => lit "=" ++ v | None => [] end.
Proof.
  induction s as [|c s IH]; [reflexivity|]. cbn [split_equals]. destruct (c =? 61)%N eqn:E.
  - apply N.eqb_eq in E as ->. reflexivity.
  - destruct (split_equals s) as [n v]. cbn [app]. now rewrite IH at 1.
Qed.
Lemma to_long_spec a n v : to_long a = Some (n, v) -> a = lit "--" ++ n ++ match v with Some v => lit "=" ++ v | None => [] end.
Proof.
  unfold to_long. destruct a as [|c [|d [|x r]]]; try discriminate. destruct (c =? cMINUS)%N eqn:E; [|discriminate]. destruct (d =? cMINUS)%N eqn:E'; [|discriminate].
  apply N.eqb_eq in E as ->. apply N.eqb_eq in E' as ->. cbn [andb skipn]. pose proof (split_equals_spec (x :: r)) as X. destruct (split_equals (x :: r)) as [n' v']. intros H. injection H as -> ->.
  change (lit "--") with [cMINUS; cMINUS]. cbn [app]. now rewrite X.
Qed.
Lemma to_short_spec a cs : to_short a = Some cs -> a = lit "-" ++ cs /\ exists c r, cs = c :: r /\ c <> cMINUS.
Proof.
  unfold to_short. destruct a as [|c [|d r]]; try discriminate. destruct (c =? cMINUS)%N eqn:E; [|discriminate]. destruct (d =? cMINUS)%N eqn:E'; [discriminate|].
  apply N.eqb_eq in E as ->. apply N.eqb_neq in E'. cbn [andb negb skipn]. intros H. injection H as <-. split; [reflexivity|]. eauto.
Qed.
Lemma letters_split cs : exists l s t, cs = l ++ t /\ letters l s /\ (t = [] \/ exists c r, t = c :: r /\ c <> 101%N /\ c <> 100%N).
Proof.
  induction cs as [|c cs (l & s & t & -> & Hl & Ht)]; [exists [], [], []; repeat split; [constructor|auto]|].
  destruct (N.eq_dec c 101) as [->|H1]; [eexists (101%N :: l), _, t; split; [reflexivity|]; split; [eapply le_encode; eauto|auto]|].
  destruct (N.eq_dec c 100) as [->|H2]; [eexists (100%N :: l), _, t; split; [reflexivity|]; split; [eapply le_decode; eauto|auto]|].
  exists [], [], (c :: l ++ t). repeat split; [constructor|]. right. eauto.
Qed.
Lemma stuck_long f a n v rest taken : str_eqb a (lit "--") = false -> to_long a = Some (n, v) ->
  (forall m, parse_long n v m = Stop WrongUsage) -> get_matches false None taken (Matcher f None) (a :: rest) = Stop WrongUsage.
Proof. intros E1 E2 H. cbn [get_matches]. rewrite E1, E2, H. reflexivity. Qed.
Lemma hyphened_dec a : hyphened a \/ ~ hyphened a.
Proof.
  destruct a as [|c [|d r]]; [right; intros (? & ? & E); discriminate E..|].
  destruct (N.eq_dec c cMINUS) as [->|H]; [left; exists d, r; reflexivity|right; intros (? & ? & E); injection E as -> _ _; now elim H].
Qed.

Lemma every_sort : forall n argv, length argv <= n -> sort_of argv.
Proof.
  induction n as [|n IH]; intros argv Hlen.
  { destruct argv; [|cbn in Hlen; lia]. eapply so_says, sy_plain, sp_nil. }
  destruct argv as [|a rest]; [eapply so_says, sy_plain, sp_nil|]. cbn in Hlen.
  assert (IHr : sort_of rest) by (apply IH; lia).
  assert (One : forall a, (forall r ss, spells r ss -> exists ss', spells (a :: r) ss') -> sort_of (a :: rest)).
  { intros a0 H. apply (sort_after [a0] rest); auto. }
  destruct (str_eqb a (lit "--")) eqn:E1.
  { apply str_eqb_eq in E1 as ->. eapply so_says. apply (sy_rest [] [] rest), sp_nil. }
  destruct (to_long a) as [[name v]|] eqn:E2.
  { pose proof (to_long_spec a name v E2) as Ea. destruct (by_name long_names name) as [id|] eqn:E3.
    2:{ eapply (so_stuck _ [] [] (a :: rest)); [reflexivity|constructor|]. intros f. eapply stuck_long; eauto. intros m. unfold parse_long. now rewrite E3. }
    apply by_name_in in E3.
    assert (K : (In name option_names /\ takes_value id = true /\ forall u, id = fst (conv (Value name u))) \/
                (takes_value id = false /\ (In name flag_names \/ exists letter k, In (name, letter, k) kinds))).
    { cbn [long_names In] in E3.
      repeat (destruct E3 as [E3|E3]; [injection E3 as <- <-|]); try contradiction E3; cbn [option_names flag_names kinds In];
        (left; split; [tauto|]; split; reflexivity) || (right; split; [reflexivity|]; left; tauto) || (right; split; [reflexivity|]; right; eauto). }
    destruct v as [v|].
    - destruct K as [(Ho & Ht & Hid)|[Ht _]].
      + subst a. apply One. intros r ss H. eexists. apply sp_equals; eauto.
      + eapply (so_stuck _ [] [] (a :: rest)); [reflexivity|constructor|]. intros f. eapply stuck_long; eauto. intros m. unfold parse_long.
        rewrite (by_name_long _ _ E3), Ht. reflexivity.
    - rewrite app_nil_r in Ea. subst a. destruct K as [(Ho & Ht & Hid)|[Ht [Hf|(letter & k & Hk)]]].
      + destruct rest as [|b rest].
        * eapply (so_stuck _ [] [] [lit "--" ++ name]); [reflexivity|constructor|]. intros f. unfold go.
          cbn [option_names In] in Ho. repeat (destruct Ho as [<-|Ho]); try contradiction Ho; reflexivity.
        * destruct (hyphened_dec b) as [Hb|Hb].
          -- eapply (so_stuck _ [] [] _); [reflexivity|constructor|]. intros f. unfold go.
             rewrite <- (waiting_stuck name f (present IInput f) b rest Ho Hb).
             cbn [option_names In] in Ho. repeat (destruct Ho as [<-|Ho]); try contradiction Ho; reflexivity.
          -- apply (sort_after [lit "--" ++ name; b] rest); [|apply IH; cbn in Hlen; lia]. intros r ss H. eexists. apply sp_next; eauto.
      + apply One. intros r ss H. eexists. apply sp_flag; eauto.
      + eapply (so_shows _ [] [] (lit "--" ++ name) [] [] rest name letter k Hk); [reflexivity|constructor|constructor|left; auto]. }
  destruct (to_short a) as [cs|] eqn:E3.
  { apply to_short_spec in E3 as (-> & c0 & r0 & Ec0 & Hc0). destruct (letters_split cs) as (l & s & t & -> & Hl & Ht).
    assert (Hne : l ++ t <> []) by (rewrite Ec0; discriminate).
    destruct Ht as [->|(c & r & -> & H1 & H2)].
    { rewrite app_nil_r in *. apply One. intros r ss H. eexists. apply sp_letters; eauto. }
    assert (Hm : c <> cMINUS \/ c = cMINUS) by (destruct (N.eq_dec c cMINUS); auto).
    assert (Stk : by_name short_names [c] = None -> sort_of ((lit "-" ++ l ++ c :: r) :: rest)).
    { intros Hn. eapply (so_stuck _ [] [] _); [reflexivity|constructor|]. intros f. rewrite (go_short f _ rest _ _ Ec0 Hc0), (short_letters l s Hl).
      cbn [parse_short]. rewrite Hn. destruct (store_all s f) as [f'|x] eqn:Es; [reflexivity|]. cbn. f_equal. eapply store_all_stop; [|exact Es]. eapply letters_named; eauto. }
    destruct (by_name short_names [c]) as [id|] eqn:E4; [|auto]. clear Stk. apply by_name_in in E4. vm_compute in E4.
    destruct E4 as [E4|[E4|[E4|[E4|[E4|[]]]]]]; injection E4 as <- <-; try congruence.
    - destruct r as [|c r].
      + destruct rest as [|b rest].
        * eapply (so_stuck _ [] [] _); [reflexivity|constructor|]. intros f. etransitivity; [apply (step_letters f l s [111%N] [] Hl); [now destruct l|intros ? ? E; injection E as <- _; discriminate]|].
          destruct (store_all s f) as [f'|x] eqn:Es; [reflexivity|]. cbn. f_equal. eapply store_all_stop; [|exact Es]. eapply letters_named; eauto.
        * destruct (hyphened_dec b) as [Hb|Hb].
          -- eapply (so_stuck _ [] [] _); [reflexivity|constructor|]. intros f. etransitivity; [apply (step_letters f l s [111%N] (b :: rest) Hl); [now destruct l|intros ? ? E; injection E as <- _; discriminate]|].
             destruct (store_all s f) as [f'|x] eqn:Es; [|cbn; f_equal; eapply store_all_stop; [|exact Es]; eapply letters_named; eauto].
             exact (waiting_stuck (lit "output") f' (present IInput f') b rest (or_introl eq_refl) Hb).
          -- apply (sort_after [lit "-" ++ l ++ lit "o"; b] rest); [|apply IH; cbn in Hlen; lia]. intros r ss H. eexists. apply sp_letters_next; eauto.
      + destruct (N.eq_dec c 61) as [->|Hc].
        * apply One. intros r' ss H. eexists. apply (sp_letters_equals l s r); eauto.
        * apply One. intros r' ss H. eexists. apply (sp_letters_attached l s c r); eauto.
    - eapply (so_shows _ [] [] _ l s rest (lit "help") 104%N ShowHelp); [now left|reflexivity|exact sp_nil|exact Hl|right; eexists; reflexivity].
    - eapply (so_shows _ [] [] _ l s rest (lit "version") 86%N ShowVersion); [right; now left|reflexivity|exact sp_nil|exact Hl|right; eexists; reflexivity]. }
  apply One. intros r ss H. eexists. apply sp_input; eauto. intros (c & r' & ->).
  unfold to_short in E3. destruct (c =? cMINUS)%N eqn:Ec; [|discriminate]. apply N.eqb_eq in Ec as ->. destruct r' as [|d r']; [discriminate E1|discriminate E2].
Qed.

(** ** What the parser answers *)
Lemma go_shows pre ss a l s r name letter k f : In (name, letter, k) kinds -> spells pre ss -> letters l s -> shows_at name letter a l ->
  go f (pre ++ a :: r) = pbind (store_all (ss ++ s) f) (fun _ => Stop k).
Proof.
  intros Hk Hp Hl Ha. rewrite (go_spells _ _ Hp), store_all_app, pbind_assoc. apply pbind_ext. intros f'.
  destruct Ha as [[-> ->]|[more ->]].
  - inversion Hl; subst. cbn [store_all pbind]. cbn [kinds In] in Hk. destruct Hk as [E|[E|[]]]; injection E as <- <- <-; reflexivity.
  - rewrite (step_letters f' l s (letter :: more)); [|exact Hl|now destruct l|].
    + apply pbind_ext. intros f2. cbn [kinds In] in Hk. destruct Hk as [E|[E|[]]]; injection E as <- <- <-; reflexivity.
    + intros c q E. injection E as <- <-. cbn [kinds In] in Hk. destruct Hk as [E|[E|[]]]; injection E as <- <- <-; discriminate.
Qed.

(** ** The values *)
Lemma value_of_in n v ss : In n option_names -> Forall well_named ss -> NoDup (map called ss) ->
  value_of (fst (conv (Value n []))) (map conv ss) = Some v <-> In (Value n v) ss.
Proof.
  intros Hn Hw Hd. induction Hw as [|s ss Hs Hw IH]; cbn [map value_of In]; [split; [discriminate|intros []]|].
  inversion Hd as [|? ? Hd1 Hd2]; subst. specialize (IH Hd2). destruct (conv s) as [i u] eqn:Ec.
  pose proof (conv_called s (Value n []) Hs Hn) as C. rewrite Ec in C. cbn [fst called] in C.
  destruct (arg_id_eqb i (fst (conv (Value n [])))) eqn:E.
  - clear E. pose proof (proj1 C eq_refl) as E. split.
    + intros H. injection H as ->. left. destruct s as [p|m|m w]; cbn [called] in E; subst; cbn [well_named] in Hs.
      * exfalso. now cbn [option_names In] in Hn; repeat (destruct Hn as [Hn|Hn]; [discriminate Hn|]).
      * exfalso. cbn [flag_names option_names In] in *. repeat (destruct Hs as [<-|Hs]); try contradiction Hs; repeat (destruct Hn as [Hn|Hn]; [discriminate Hn|]); contradiction Hn.
      * cbn in Ec. injection Ec as _ ->. reflexivity.
    + intros [->|H]; [cbn in Ec; injection Ec as _ ->; reflexivity|]. exfalso. apply Hd1. rewrite E. now apply (in_map called) in H.
  - rewrite IH. split; [auto|intros [->|H]; [|auto]]. assert (X : false = true) by now apply C. discriminate X.
Qed.
Lemma value_of_input p ss : Forall well_named ss -> NoDup (map called ss) ->
  value_of IInput (map conv ss) = Some p <-> In (Input p) ss.
Proof.
  intros Hw Hd. induction Hw as [|s ss Hs Hw IH]; cbn [map value_of In]; [split; [discriminate|intros []]|].
  inversion Hd as [|? ? Hd1 Hd2]; subst. specialize (IH Hd2). destruct (conv s) as [i u] eqn:Ec.
  pose proof (conv_called s (Input []) Hs I) as C. rewrite Ec in C. cbn [fst conv called] in C.
  destruct (arg_id_eqb i IInput) eqn:E.
  - clear E. pose proof (proj1 C eq_refl) as E. split.
    + intros H. injection H as ->. left. destruct s as [q|m|m w]; cbn [called] in E; subst; cbn [well_named] in Hs.
      * cbn in Ec. injection Ec as _ ->. reflexivity.
      * exfalso. cbn [flag_names In] in *. repeat (destruct Hs as [Hs|Hs]; [discriminate Hs|]); contradiction Hs.
      * exfalso. cbn [option_names In] in *. repeat (destruct Hs as [Hs|Hs]; [discriminate Hs|]); contradiction Hs.
    + intros [->|H]; [cbn in Ec; injection Ec as _ ->; reflexivity|]. exfalso. apply Hd1. rewrite E. now apply (in_map called) in H.
  - rewrite IH. split; [auto|intros [->|H]; [|auto]]. assert (X : false = true) by now apply C. discriminate X.
Qed.
Lemma present_flag n ss : In n flag_names -> Forall well_named ss -> present (fst (conv (Flag n))) (map conv ss) = true <-> In (Flag n) ss.
Proof.
  intros Hn Hw. rewrite (present_called (Flag n) ss Hn Hw). cbn [called]. rewrite in_map_iff. split.
  - intros (s & E & Hi). rewrite Forall_forall in Hw. specialize (Hw s Hi). destruct s as [q|m|m w]; cbn [called well_named] in *; subst.
    + exfalso. cbn [flag_names In] in *. repeat (destruct Hn as [Hn|Hn]; [discriminate Hn|]); contradiction Hn.
    + exact Hi.
    + exfalso. cbn [flag_names option_names In] in *. repeat (destruct Hw as [<-|Hw]); try contradiction Hw; repeat (destruct Hn as [Hn|Hn]; [discriminate Hn|]); contradiction Hn.
  - intros H. exists (Flag n). auto.
Qed.
Lemma chosen_spec {A} ss n (p : str -> option A) named dv d x :
  In n option_names -> Forall well_named ss -> NoDup (map called ss) -> (forall v x, p v = Some x <-> named v x) -> p dv = Some d ->
  (forall v, In (Value n v) ss -> exists x, named v x) ->
  (chosen ss n named d x <-> p (default dv (value_of (fst (conv (Value n []))) (map conv ss))) = Some x).
Proof.
  intros Hn Hw Hd Hp Hv Hg. unfold chosen. destruct (value_of (fst (conv (Value n []))) (map conv ss)) as [v|] eqn:E; cbn [default].
  - pose proof (proj1 (value_of_in n v ss Hn Hw Hd) E) as Hi. rewrite Hp. split.
    + intros [(v' & Hi' & Hx)|[Hno _]]; [|now elim (Hno v)]. apply (value_of_in n v' ss Hn Hw Hd) in Hi'. congruence.
    + intros H. left. eauto.
  - rewrite Hv. assert (Hno : forall v, ~ In (Value n v) ss) by (intros v Hi; apply (value_of_in n v ss Hn Hw Hd) in Hi; congruence). split.
    + intros [(v' & Hi' & _)|[_ ->]]; [now elim (Hno v')|reflexivity].
    + intros H. right. split; [auto|congruence].
Qed.
Lemma good_value ss n v : Forall good ss -> In (Value n v) ss -> good (Value n v).
Proof. intros H Hi. rewrite Forall_forall in H. auto. Qed.
Lemma bool_eq a b (P : Prop) : (a = true <-> P) -> (b = true <-> P) -> a = b.
Proof. destruct a, b; intuition congruence. Qed.
Lemma option_eq {A} (a b : option A) (P : A -> Prop) : (forall x, a = Some x <-> P x) -> (forall x, b = Some x <-> P x) -> a = b.
Proof.
  intros Ha Hb. destruct a as [x|].
  - symmetry. apply Hb, Ha. reflexivity.
  - destruct b as [y|]; [|reflexivity]. assert (X : None = Some y) by (apply Ha, Hb; reflexivity). discriminate X.
Qed.

Lemma means_from ss a : Forall well_named ss -> proper ss -> (present IEncode (map conv ss) && present IDecode (map conv ss))%bool = false ->
  means ss a <-> a = from_matches (map conv ss).
Proof.
  intros Hw [Hd Hg] Hc. pose proof (conj Hd Hg : proper ss) as Hp.
  assert (N : forall n, In n [lit "output"; lit "delimiter"; lit "indent"; lit "key-folding"; lit "flatten-depth"; lit "expand-paths"] -> In n option_names) by auto.
  assert (G : forall n v (P : Prop), In (Value n v) ss -> (good (Value n v) -> P) -> P) by (intros n v P Hi HP; apply HP; eapply good_value; eauto).
  pose proof (fun p => value_of_input p ss Hw Hd) as Vin.
  pose proof (fun p => value_of_in (lit "output") p ss ltac:(cbn; tauto) Hw Hd) as Vout. change (fst (conv (Value (lit "output") []))) with IOutput in Vout.
  pose proof (present_flag (lit "encode") ss ltac:(cbn; tauto) Hw) as Fe. change (fst (conv (Flag (lit "encode")))) with IEncode in Fe.
  pose proof (present_flag (lit "decode") ss ltac:(cbn; tauto) Hw) as Fd. change (fst (conv (Flag (lit "decode")))) with IDecode in Fd.
  pose proof (present_flag (lit "no-strict") ss ltac:(cbn; tauto) Hw) as Fn. change (fst (conv (Flag (lit "no-strict")))) with INoStrict in Fn.
  pose proof (present_flag (lit "stats") ss ltac:(cbn; tauto) Hw) as Fs. change (fst (conv (Flag (lit "stats")))) with IStats in Fs.
  assert (G1 : forall v, In (Value (lit "delimiter") v) ss -> exists x, delimiter_named v x) by (intros v Hi; eapply G; [exact Hi|intros H; inversion H; subst; eauto]).
  assert (G2 : forall v, In (Value (lit "indent") v) ss -> exists x, indent_named v x) by (intros v Hi; eapply G; [exact Hi|intros H; inversion H; subst; eauto]).
  assert (G3 : forall v, In (Value (lit "key-folding") v) ss -> exists x, folding_named v x) by (intros v Hi; eapply G; [exact Hi|intros H; inversion H; subst; eauto]).
  assert (G4 : forall v, In (Value (lit "flatten-depth") v) ss -> exists x, depth_named v x) by (intros v Hi; eapply G; [exact Hi|intros H; inversion H; subst; eauto]).
  assert (G5 : forall v, In (Value (lit "expand-paths") v) ss -> exists x, expand_named v x) by (intros v Hi; eapply G; [exact Hi|intros H; inversion H; subst; eauto]).
  pose proof (fun x => chosen_spec ss (lit "delimiter") parse_delimiter delimiter_named (lit ",") cCOMMA x ltac:(cbn; tauto) Hw Hd delimiter_chosen eq_refl G1) as C1.
  change (fst (conv (Value (lit "delimiter") []))) with IDelimiter in C1.
  pose proof (fun x => chosen_spec ss (lit "indent") parse_indent indent_named (lit "2") 2 x ltac:(cbn; tauto) Hw Hd indent_chosen eq_refl G2) as C2.
  change (fst (conv (Value (lit "indent") []))) with IIndent in C2.
  pose proof (fun x => chosen_spec ss (lit "key-folding") parse_folding folding_named (lit "off") KFOff x ltac:(cbn; tauto) Hw Hd folding_chosen eq_refl G3) as C3.
  change (fst (conv (Value (lit "key-folding") []))) with IKeyFolding in C3.
  pose proof (fun x => chosen_spec ss (lit "expand-paths") parse_expand expand_named (lit "off") EPOff x ltac:(cbn; tauto) Hw Hd expand_chosen eq_refl G5) as C5.
  change (fst (conv (Value (lit "expand-paths") []))) with IExpandPaths in C5.
  pose proof (fun p => value_of_in (lit "flatten-depth") p ss ltac:(cbn; tauto) Hw Hd) as Vd. change (fst (conv (Value (lit "flatten-depth") []))) with IFlattenDepth in Vd.
  set (f := map conv ss) in *.
  assert (C4 : forall x, chosen ss (lit "flatten-depth") (fun v x => exists n, depth_named v n /\ x = Some n) None x <->
     x = match value_of IFlattenDepth f with Some v => parse_usize v | None => None end).
  { intros x. unfold chosen. destruct (value_of IFlattenDepth f) as [v|].
    - pose proof (proj1 (Vd v) eq_refl) as Hi. destruct (G4 v Hi) as [n Hn]. apply depth_chosen in Hn. split.
      + intros [(v' & Hi' & m & Hm & ->)|[Hno _]]; [|now elim (Hno v)]. apply Vd in Hi'. injection Hi' as <-. apply depth_chosen in Hm. congruence.
      + intros ->. left. exists v. split; [exact Hi|]. exists n. split; [now apply depth_chosen|exact Hn].
    - split; [intros [(v & Hi & _)|[_ ->]]; [apply Vd in Hi; discriminate Hi|reflexivity]|]. intros ->. right. split; [|reflexivity].
      intros v Hi. apply Vd in Hi. discriminate Hi. }
  assert (D1 : exists x, parse_delimiter (default (lit ",") (value_of IDelimiter f)) = Some x).
  { destruct (parse_delimiter _) as [x|] eqn:E; [eauto|]. exfalso. destruct (value_of IDelimiter f) as [v|] eqn:Ev; [|discriminate E]. cbn [default] in E.
    apply (value_of_in (lit "delimiter") v ss ltac:(cbn; tauto) Hw Hd) in Ev. destruct (G1 v Ev) as [x Hx]. apply delimiter_chosen in Hx. congruence. }
  assert (D2 : exists x, parse_indent (default (lit "2") (value_of IIndent f)) = Some x).
  { destruct (parse_indent _) as [x|] eqn:E; [eauto|]. exfalso. destruct (value_of IIndent f) as [v|] eqn:Ev; [|discriminate E]. cbn [default] in E.
    apply (value_of_in (lit "indent") v ss ltac:(cbn; tauto) Hw Hd) in Ev. destruct (G2 v Ev) as [x Hx]. apply indent_chosen in Hx. congruence. }
  assert (D3 : exists x, parse_folding (default (lit "off") (value_of IKeyFolding f)) = Some x).
  { destruct (parse_folding _) as [x|] eqn:E; [eauto|]. exfalso. destruct (value_of IKeyFolding f) as [v|] eqn:Ev; [|discriminate E]. cbn [default] in E.
    apply (value_of_in (lit "key-folding") v ss ltac:(cbn; tauto) Hw Hd) in Ev. destruct (G3 v Ev) as [x Hx]. apply folding_chosen in Hx. congruence. }
  assert (D5 : exists x, parse_expand (default (lit "off") (value_of IExpandPaths f)) = Some x).
  { destruct (parse_expand _) as [x|] eqn:E; [eauto|]. exfalso. destruct (value_of IExpandPaths f) as [v|] eqn:Ev; [|discriminate E]. cbn [default] in E.
    apply (value_of_in (lit "expand-paths") v ss ltac:(cbn; tauto) Hw Hd) in Ev. destruct (G5 v Ev) as [x Hx]. apply expand_chosen in Hx. congruence. }
  destruct D1 as [x1 D1], D2 as [x2 D2], D3 as [x3 D3], D5 as [x5 D5].
  unfold from_matches. rewrite D1, D2, D3, D5. cbn [default]. split.
  - intros [_ _ M1 M2 M3 M4 M5 M6 M7 M8 M9 M10 M11]. destruct a as [a1 a2 a3 a4 a5 a6 a7 a8 a9 a10 a11]. cbn [a_input a_output a_encode a_decode a_delimiter a_indent a_no_strict a_key_folding a_flatten_depth a_expand_paths a_stats] in *.
    apply C1 in M5. apply C2 in M6. apply C3 in M8. apply C4 in M9. apply C5 in M10.
    assert (a5 = x1) by congruence. assert (a6 = x2) by congruence. assert (a8 = x3) by congruence. assert (a10 = x5) by congruence. subst a5 a6 a8 a10 a9.
    f_equal.
    + exact (option_eq _ _ _ M1 Vin).
    + exact (option_eq _ _ _ M2 Vout).
    + exact (bool_eq _ _ _ M3 Fe).
    + exact (bool_eq _ _ _ M4 Fd).
    + exact (bool_eq _ _ _ M7 Fn).
    + exact (bool_eq _ _ _ M11 Fs).
  - intros ->. constructor; cbn [a_input a_output a_encode a_decode a_delimiter a_indent a_no_strict a_key_folding a_flatten_depth a_expand_paths a_stats]; auto.
    + rewrite <- Fe, <- Fd. intros [A B]. rewrite A, B in Hc. discriminate Hc.
    + now apply C1.
    + now apply C2.
    + now apply C3.
    + now apply C4.
    + now apply C5.
Qed.
